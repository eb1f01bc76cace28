(** Specification of reading a displayed line back. *)

From Verif Require Export SpecDisplay.

Section SpecRead.
Context {UC : Unicode} {U : UserTypes}.

(** The printed text of a value does not disturb the layout: it has no line break and does not
    begin with one of the two characters an underline goes on with. *)
Definition plain (text : str) : Prop :=
  ~ In 10%N text
  /\ forall c rest, text = c :: rest -> c <> 9472%N (* U+2500 *) /\ c <> 9583%N (* U+256F *).

(** Every value of the type is printed so. *)
Definition prints_plain (x : { t : ty & den t -> str }) : Prop := forall v, plain (projT2 x v).

(** All rows that are asked for. *)
Definition rows_of (incs : list { t : ty & den t -> str }) (lg : list entry) : list (LRange * str) :=
  flat_map (fun x => included (projT1 x) (projT2 x) lg) incs.

End SpecRead.
