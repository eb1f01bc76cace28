(** Specification vocabulary for tables that ignore case or not, one after the other (C98). *)

From Verif Require Export SpecMerge.

Local Open Scope list_scope.

Section SpecMergeCi.
Context {UC : Unicode} {U : UserTypes}.

(** A table that is used as it is, or one that ignores case. *)
Inductive Table (t : ty) := AsWritten (table : list (str * list (den t))) | IgnoringCase (table : list (str * list (den t))).
Arguments AsWritten {t}. Arguments IgnoringCase {t}.

Definition text_match_of {t} (x : Table t) : TextMatch t :=
  match x with AsWritten table => text_match_new table | IgnoringCase table => text_match_new_ci table end.
Definition any_table_step {t} (x : N * Table t) : N * any_step := (fst x, Lib (RunTextMatch t (text_match_of (snd x)))).

(** The table of a [HashMap] has every key once. *)
Definition hash_table {t} (x : Table t) : Prop := match x with AsWritten table => NoDup (map fst table) | IgnoringCase _ => True end.

(** What it has for a text. *)
Definition table_says {t} (text : str) (x : Table t) : list (den t) :=
  match x with
  | AsWritten table => entry_values (fun k => str_eqb k text) table
  | IgnoringCase table => last_entry_values (fun k => same_ignoring_case k text) table
  end.

(** No key of one of the tables is a key of another in whatever case. *)
Definition keys_apart_ci {V} (tables : list (list (str * V))) : Prop :=
  ForallOrdPairs (fun a b => forall k k', In k (map fst a) -> In k' (map fst b) -> u_lower k <> u_lower k') tables.

End SpecMergeCi.
Arguments AsWritten {U t}. Arguments IgnoringCase {U t}.
