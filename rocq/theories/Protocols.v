(** The protocols that the packages give, and those joined of them. *)
From Coq Require Import Strings.String.
From Verif Require Import Base Prog Bufio BufioW Wire Binary Compact ThriftTest.
Local Open Scope Z_scope.
Local Open Scope list_scope.

(** A value of type thriftwire.Protocol: thriftbinary.Protocol and thriftbinary.ProtocolNonStrict
    (encoding/thriftbinary/thriftbinary.go:22-26), thriftcompact.Protocol (encoding/thriftcompact/thriftcompact.go:21-22),
    and what JoinProtocol returns (encoding/thriftwire/protocol.go:18-24).  Protocols of others are not among them. *)
Inductive pval : Type :=
| PBinary
| PNonStrict
| PCompact
| PJoin (r w : pval).

(** What NewReader and NewWriter of it make: thriftbinary.go:30-36 and 44-50, thriftcompact.go:26-32, protocol.go:26-27 *)
Fixpoint protocol_of (p : pval) : protocol :=
  match p with
  | PBinary => binary_protocol true
  | PNonStrict => binary_protocol false
  | PCompact => compact_protocol
  | PJoin r w => join_protocol (protocol_of r) (protocol_of w)
  end.

(** String: thriftbinary.go:38-40 and 52-54, thriftcompact.go:34-36, protocol.go:28-30 (%v calls String of the two) *)
Fixpoint protocol_String (p : pval) : list byte :=
  match p with
  | PBinary => lit "thriftbinary.Protocol"
  | PNonStrict => lit "thriftbinary.ProtocolNonStrict"
  | PCompact => lit "thriftcompact.Protocol"
  | PJoin r w => lit "thriftwire.JoinProtocol(" ++ protocol_String r ++ lit ", " ++ protocol_String w ++ lit ")"
  end.
