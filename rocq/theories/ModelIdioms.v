(** The resolvers written in the repository's own tests and README with nothing
    but selections, matchers and [finish_with]. *)

From Verif Require Export ModelSel.

Section Idioms.
Context {U : UserTypes}.

(** src/tests/ll_selection.rs:6-10,119-123 (and README.md:11-30, "Layering"):
    [selection.find_by(&m).finish_with(f)]. *)
Definition find_resolver {A} (t : ty) (m : matcher A) (f : A -> den t) : Resolver t :=
  fun sel => found <- find_by sel m;; Ok (mkGo (finish_with found f) false).

(** src/tests/currency_amount.rs:117-124:
    [selection.find_by_forwards_and_backwards(&m).finish_with(f)]. *)
Definition find_both_resolver {A} (t : ty) (m : matcher A) (f : A -> den t) : Resolver t :=
  fun sel => found <- find_by_forwards_and_backwards sel m;; Ok (mkGo (finish_with found f) false).

(** src/tests/currency_amount.rs:14-28 [CurrencySymbolResolver]: one of two
    characters, one value for each; [unreachable!] otherwise (a panic of user code). *)
Definition currency_symbol_resolver (tS : ty) (usd euro : den tS) : Resolver tS :=
  fun sel =>
    found <- find_by sel (x_token_has_any TChar N.eqb [8364 (* euro *); 36 (* dollar *)]%N);;
    ass <- mapM (fun '(s, c) =>
                   if N.eqb c 36 then Ok (finish_with_attr s usd)
                   else if N.eqb c 8364 then Ok (finish_with_attr s euro)
                   else Panic PUser) found;;
    Ok (mkGo ass false).

(** src/tests/currency_amount.rs:114-125 [CurrencyAmountResolver], generic in the
    two attribute types and in the combination of their values. *)
Definition currency_amount_resolver (tS tA tC : ty) (f : den tS * den tA -> den tC) : Resolver tC :=
  find_both_resolver tC (x_seq2 (x_attr tS) (x_attr tA)) f.

End Idioms.
