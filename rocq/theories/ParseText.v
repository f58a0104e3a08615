(** The text of the error Parse returns. *)
From Coq Require Import Strings.String.
From Verif Require Import Base Scan.
Local Open Scope list_scope.

(** strconv.Itoa of a number that is not negative; [%d] *)
Fixpoint dec_text (fuel n : nat) : list byte :=
  match fuel with
  | O => []
  | S m => (if (n <? 10)%nat then [] else dec_text m (n / 10)) ++ [z2b (48 + Z.of_nat (n mod 10))]
  end.
Definition itoa (n : nat) : list byte := dec_text (S n) n.

(** go/token Position.String *)
Definition position_text (filename : list byte) (line col : nat) : list byte :=
  let s := filename in
  let s := if (0 <? line)%nat then
             (match s with [] => s | _ => s ++ lit ":" end) ++ itoa line ++
             (if (col =? 0)%nat then [] else lit ":" ++ itoa col)
           else s in
  match s with [] => lit "-" | _ => s end.

(** parser.go:26-28 error_.Error *)
Definition error_text (filename : list byte) (e : perr) : list byte :=
  position_text filename (pe_line e) (pe_col e) ++ lit ": " ++ pe_msg e.

(** parser.go:68-76 errors_.Error *)
Definition errors_text (filename : list byte) (errs : list perr) : list byte :=
  match errs with
  | [] => lit "no errors"
  | [e] => error_text filename e
  | e :: rest => error_text filename e ++ lit " (and " ++ itoa (length errs - 1) ++ lit " more errors)"
  end.

(** parser.go:10-19, 36-41: the text of the error Parse returns; nil is None. *)
Definition parse_error_text (filename : list byte) (errs : list perr) : option (list byte) :=
  match errs with [] => None | _ => Some (errors_text filename errs) end.
