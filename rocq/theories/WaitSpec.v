(** Where strings stand in a Compact encoding. *)
From Verif Require Import Base Spec.

(** [from_string v m]: in the Compact encoding of [v] there is a string (its length comes first), and [m] is all that the
    encoding has from there on. *)
Inductive from_string : tval -> list byte -> Prop :=
| fs_string s l : compact_encoding (VString s) l -> from_string (VString s) l
| fs_field before id v after m n : from_string v m -> compact_fields compact_field id after n ->
    from_string (VStruct (before ++ (id, v) :: after)) (m ++ n)
| fs_key kt vt before k v after m b n : from_string k m -> compact_encoding v b -> compact_entries compact_field after n ->
    from_string (VMap kt vt (before ++ (k, v) :: after)) (m ++ b ++ n)
| fs_value kt vt before k v after m n : from_string v m -> compact_entries compact_field after n ->
    from_string (VMap kt vt (before ++ (k, v) :: after)) (m ++ n)
| fs_set et before v after m n : from_string v m -> compact_elems compact_field after n ->
    from_string (VSet et (before ++ v :: after)) (m ++ n)
| fs_list et before v after m n : from_string v m -> compact_elems compact_field after n ->
    from_string (VList et (before ++ v :: after)) (m ++ n).
