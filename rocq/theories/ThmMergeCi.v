(** C98: tables that ignore case or not, taken apart and put together. *)

From Verif Require Export SpecMergeCi ThmMerge.

Local Open Scope list_scope.

Section MergeCi.
Context {UC : Unicode} {U : UserTypes}.

Lemma any_tables_run {t} (xs : list (N * Table t)) l lg : History l lg -> Forall (fun x => hash_table (snd x)) xs ->
  exists l', after_any l (map any_table_step xs) l' /\ ll_tokens l' = ll_tokens l /\ History l' (lg ++ tagged_out (outs (map (fun x text => table_says text (snd x)) xs) (ll_tokens l))).
Proof.
  intros H HN. apply (outs_run any_table_step (fun (x : N * Table t) text => table_says text (snd x)) xs l lg H). intros [id x] m mg Hx Hm. rewrite Forall_forall in HN. specialize (HN _ Hx).
  destruct x as [table|table]; cbn [fst snd any_table_step text_match_of table_says hash_table] in *.
  - exact (thm_C37_case_sensitive t id m mg table Hm HN).
  - exact (thm_C38_last_wins t id m mg table Hm).
Qed.

(** C98: tables of either kind that have the same values for every text leave lines that answer alike. *)
Lemma thm_C98_mixed :
  forall t l lg (xs ys : list (N * Table t)),
    History l lg -> Forall (fun x => hash_table (snd x)) xs -> Forall (fun x => hash_table (snd x)) ys ->
    (forall text, flat_map (fun x => table_says text (snd x)) xs = flat_map (fun x => table_says text (snd x)) ys) ->
    exists l1 l2, after_any l (map any_table_step xs) l1 /\ after_any l (map any_table_step ys) l2 /\ interchangeable t l1 l2.
Proof.
  intros t l lg xs ys H D1 D2 HE. destruct (any_tables_run xs l lg H D1) as (l1 & A1 & T1 & H1). destruct (any_tables_run ys l lg H D2) as (l2 & A2 & T2 & H2).
  exists l1, l2. split; [exact A1|]. split; [exact A2|]. eapply like_interchangeable; [exact H1|exact H2|congruence|]. apply outs_like. intros s tok tag _ _.
  assert (K : forall ts : list (N * Table t), flat_map (fun f => f s) (map (fun x text => table_says text (snd x)) ts) = flat_map (fun x => table_says s (snd x)) ts).
  { induction ts as [|x ts IH]; [reflexivity|]. cbn [map flat_map]. now rewrite IH. }
  rewrite !K. apply HE.
Qed.

Lemma filter_none {A} (p : A -> bool) xs : (forall x, In x xs -> p x = false) -> filter p xs = [].
Proof. induction xs as [|x xs IH]; intros H; [reflexivity|]. cbn. rewrite (H x (or_introl eq_refl)). apply IH. intros y Hy. apply H. now right. Qed.

Lemma last_entry_concat {V} (tables : list (list (str * list V))) text : keys_apart_ci tables ->
  last_entry_values (fun k => same_ignoring_case k text) (concat tables) = flat_map (last_entry_values (fun k => same_ignoring_case k text)) tables.
Proof.
  induction 1 as [|tb tbs HF _ IH]; [reflexivity|]. cbn [concat flat_map]. rewrite <- IH. unfold last_entry_values. rewrite filter_app, rev_app_distr.
  destruct (filter (fun e => same_ignoring_case (fst e) text) tb) as [|e es] eqn:E.
  - cbn [rev app]. rewrite app_nil_r. reflexivity.
  - assert (EN : filter (fun e => same_ignoring_case (fst e) text) (concat tbs) = []).
    { apply filter_none. intros x Hx. destruct (same_ignoring_case (fst x) text) eqn:Es; [|reflexivity]. exfalso. apply in_concat in Hx. destruct Hx as (tb' & Ht & Hx). rewrite Forall_forall in HF.
      assert (He : In e (e :: es)) by now left. rewrite <- E in He. apply filter_In in He. destruct He as [He Ee]. unfold same_ignoring_case in *. apply str_eqb_spec in Es, Ee.
      apply (HF tb' Ht (fst e) (fst x)); [now apply in_map|now apply in_map|congruence]. }
    rewrite EN. change (rev (@nil (str * list V))) with (@nil (str * list V)). cbn [app]. now rewrite app_nil_r.
Qed.

(** C98: one table that ignores case, or the same entries in several. *)
Lemma thm_C98_split_ci :
  forall t l lg id (tables : list (N * list (str * list (den t)))),
    History l lg -> keys_apart_ci (map snd tables) ->
    exists l1 l2, after_any l (map (fun x => any_table_step (fst x, IgnoringCase (snd x))) tables) l1
      /\ run id l (text_match_go (text_match_new_ci (concat (map snd tables)))) = Ok l2 /\ interchangeable t l1 l2.
Proof.
  intros t l lg id tables H HA.
  destruct (thm_C98_mixed t l lg (map (fun x => (fst x, IgnoringCase (snd x))) tables) [(id, IgnoringCase (concat (map snd tables)))] H) as (l1 & l2 & A1 & A2 & HI).
  - apply Forall_forall. intros x Hx. apply in_map_iff in Hx. destruct Hx as (y & <- & _). exact I.
  - constructor; [exact I|constructor].
  - intros text. cbn [flat_map table_says snd]. rewrite app_nil_r, (last_entry_concat _ text HA). clear. induction tables as [|x xs IH]; [reflexivity|]. cbn [map flat_map snd table_says]. now rewrite IH.
  - exists l1, l2. rewrite map_map in A1. split; [exact A1|]. split; [|exact HI]. inversion A2 as [|? ? ? ? l3 ? HR HD]; subst. inversion HD; subst. exact HR.
Qed.

End MergeCi.
