(** The resolvers look at a line only through matchers: on two lines with as many
    tokens on which the matchers they use agree, they make the same assignments. *)

From Verif Require Export SpecOrder ThmPipe ThmLayer.

Section ThmParam.
Context {UC : Unicode} {U : UserTypes}.

Lemma flat_mapM_map {A B C} (f : A -> res (list B)) (h : B -> C) xs :
  rmap (map h) (flat_mapM f xs) = flat_mapM (fun x => rmap (map h) (f x)) xs.
Proof.
  induction xs as [|x xs IH]; [reflexivity|]. rewrite !flat_mapM_cons, <- IH. unfold rmap.
  destruct (f x); cbn [bind]; try reflexivity. destruct (flat_mapM f xs); cbn [bind]; try reflexivity. now rewrite map_app.
Qed.

(** ** What a matcher expression reads *)

Lemma types_lib {A} (e : mexp A) : forall P : ty -> Prop, (forall t, In t (types_of e) -> P t) ->
  lib_matcher P (uses_has_any e) A (matcher_of e).
Proof.
  induction e; cbn [types_of uses_has_any matcher_of]; intros P HP.
  - apply LM_attr. apply HP. now left.
  - apply LM_attr_eq. apply HP. now left.
  - apply LM_token_has_any. apply HP. now left.
  - apply LM_token_text.
  - apply LM_all2; [apply IHe1|apply IHe2]; intros; apply HP; rewrite in_app_iff; auto.
  - apply LM_all3; [apply IHe1|apply IHe2|apply IHe3]; intros; apply HP; rewrite !in_app_iff; auto.
  - apply LM_any2; [apply IHe1|apply IHe2]; intros; apply HP; rewrite in_app_iff; auto.
  - apply LM_any3; [apply IHe1|apply IHe2|apply IHe3]; intros; apply HP; rewrite !in_app_iff; auto.
  - apply LM_seq2; [apply IHe1|apply IHe2]; intros; apply HP; rewrite in_app_iff; auto.
  - apply LM_seq3; [apply IHe1|apply IHe2|apply IHe3]; intros; apply HP; rewrite !in_app_iff; auto.
Qed.

Lemma rmap_rmap {A B C} (f : A -> B) (g : B -> C) x : rmap g (rmap f x) = rmap (fun a => g (f a)) x.
Proof. now destruct x. Qed.

Section Move.
Context (rc rc' : RcLine).
Context (HL : length (ll_tokens (rc_line rc)) = length (ll_tokens (rc_line rc'))).

(** The same selection of the other line. *)
Definition mv (s : LLSelection) : LLSelection := mkSel rc' (start_idx s) (end_idx s).
Definition mv1 {A} (x : LLSelection * A) : LLSelection * A := (mv (fst x), snd x).
Definition on (s : LLSelection) : Prop := sel_line s = rc.
Definition same {A} (m : matcher A) : Prop := forall d, m d (rc_line rc) = m d (rc_line rc').

Lemma find_by_mv {A} (m : matcher A) s : on s -> same m -> find_by (mv s) m = rmap (map mv1) (find_by s m).
Proof.
  intros HS HM. unfold find_by. rewrite flat_mapM_map. cbn [mv start_idx end_idx sel_line]. apply flat_mapM_ext. intros i _.
  unfold line_of. rewrite HS. cbn [sel_line mv]. rewrite (HM (Fwd i)). destruct (m (Fwd i) (rc_line rc')); cbn [bind rmap]; try reflexivity.
  unfold rmap. cbn [bind]. rewrite map_map. f_equal. apply map_ext. now intros [o j].
Qed.

Lemma find_both_mv {A} (m : matcher A) s : on s -> same m ->
  find_by_forwards_and_backwards (mv s) m = rmap (map mv1) (find_by_forwards_and_backwards s m).
Proof.
  intros HS HM. unfold find_by_forwards_and_backwards. rewrite flat_mapM_map. cbn [mv start_idx end_idx sel_line].
  apply flat_mapM_ext. intros i _. unfold line_of. rewrite HS. cbn [sel_line mv]. rewrite (HM (Fwd i)), (HM (Bwd i)).
  destruct (m (Fwd i) (rc_line rc')); cbn [bind rmap]; try reflexivity. destruct (m (Bwd i) (rc_line rc')); cbn [bind rmap]; try reflexivity.
  unfold rmap. cbn [bind]. rewrite map_app, !map_map. f_equal. f_equal; apply map_ext; now intros [o j].
Qed.

Lemma flat_mapM_Forall {A B} (P : B -> Prop) (f : A -> res (list B)) xs ys :
  (forall x zs, In x xs -> f x = Ok zs -> Forall P zs) -> flat_mapM f xs = Ok ys -> Forall P ys.
Proof.
  revert ys. induction xs as [|x xs IH]; intros ys HF E.
  - inversion E. constructor.
  - rewrite flat_mapM_cons in E. destruct (f x) as [zs| |] eqn:Ex; cbn [bind] in E; try discriminate.
    destruct (flat_mapM f xs) as [ws| |]; cbn [bind] in E; try discriminate. inversion E.
    apply Forall_app. split; [eapply HF; eauto; now left|]. apply IH; auto. intros z zs0 Hz. apply HF. now right.
Qed.

Lemma find_by_on {A} (m : matcher A) s found : on s -> find_by s m = Ok found -> Forall (fun x => on (fst x)) found.
Proof.
  intros HS. unfold find_by. apply flat_mapM_Forall. intros i zs _ E.
  destruct (m (Fwd i) (line_of s)) as [ms| |]; cbn [bind] in E; try discriminate. inversion E. apply Forall_map, Forall_forall.
  now intros [o j] _.
Qed.

Lemma hd_mv1 {A} (xs : list (LLSelection * A)) : hd_opt (map mv1 xs) = option_map mv1 (hd_opt xs).
Proof. now destruct xs. Qed.

Lemma find_first_mv {A} (m : matcher A) s : on s -> same m ->
  find_first_by (mv s) m = rmap (option_map mv1) (find_first_by s m).
Proof.
  intros HS HM. unfold find_first_by. rewrite (find_by_mv m s HS HM). destruct (find_by s m); try reflexivity.
  unfold rmap. cbn [bind]. now rewrite hd_mv1.
Qed.

Lemma line_len_mv s : on s -> line_len (mv s) = line_len s.
Proof. intros HS. unfold line_len, line_of, mv. cbn [sel_line]. rewrite HS. now symmetry. Qed.

Lemma match_forwards_mv {A} (m : matcher A) s : on s -> same m -> match_forwards (mv s) m = rmap (map mv1) (match_forwards s m).
Proof.
  intros HS HM. unfold match_forwards. rewrite (line_len_mv s HS). cbn [mv start_idx end_idx].
  destruct (Nat.eqb _ _); [reflexivity|]. unfold line_of. rewrite HS. cbn [sel_line mv].
  rewrite (HM (Fwd (S (end_idx s)))). destruct (m _ (rc_line rc')); cbn [bind rmap]; try reflexivity.
  unfold rmap. cbn [bind]. rewrite map_map. f_equal. apply map_ext. now intros [o j].
Qed.

Lemma match_backwards_mv {A} (m : matcher A) s : on s -> same m -> match_backwards (mv s) m = rmap (map mv1) (match_backwards s m).
Proof.
  intros HS HM. unfold match_backwards. cbn [mv start_idx end_idx].
  destruct (Nat.eqb _ _); [reflexivity|]. unfold line_of. rewrite HS. cbn [sel_line mv].
  rewrite (HM (Bwd (start_idx s - 1))). destruct (m _ (rc_line rc')); cbn [bind rmap]; try reflexivity.
  unfold rmap. cbn [bind]. rewrite map_map. f_equal. apply map_ext. now intros [o j].
Qed.

Lemma first_forwards_mv {A} (m : matcher A) s : on s -> same m ->
  match_first_forwards (mv s) m = rmap (option_map mv1) (match_first_forwards s m).
Proof.
  intros HS HM. unfold match_first_forwards. rewrite (match_forwards_mv m s HS HM). destruct (match_forwards s m); try reflexivity.
  unfold rmap. cbn [bind]. now rewrite hd_mv1.
Qed.

Lemma first_backwards_mv {A} (m : matcher A) s : on s -> same m ->
  match_first_backwards (mv s) m = rmap (option_map mv1) (match_first_backwards s m).
Proof.
  intros HS HM. unfold match_first_backwards. rewrite (match_backwards_mv m s HS HM). destruct (match_backwards s m); try reflexivity.
  unfold rmap. cbn [bind]. now rewrite hd_mv1.
Qed.

Lemma first_forwards_on {A} (m : matcher A) s x : on s -> match_first_forwards s m = Ok (Some x) -> on (fst x).
Proof.
  intros HS. unfold match_first_forwards, match_forwards. destruct (Nat.eqb _ _); [discriminate|].
  destruct (m _ (line_of s)) as [[|[o j] ms]| |]; cbn [bind rmap]; try discriminate. unfold rmap. cbn [bind map hd_opt]. intros E. inversion E. exact HS.
Qed.

Lemma find_first_on {A} (m : matcher A) s x : on s -> find_first_by s m = Ok (Some x) -> on (fst x).
Proof.
  intros HS. unfold find_first_by. destruct (find_by s m) as [found| |] eqn:E; try discriminate. unfold rmap. cbn [bind].
  intros E1. pose proof (find_by_on m s found HS E) as HF. destruct found as [|y found]; inversion E1; subst. now inversion HF.
Qed.

Lemma selection_from_mv s a b : selection_from (mv s) a b = option_map mv (selection_from s a b).
Proof. unfold selection_from, mv. cbn [start_idx end_idx sel_line]. now destruct (_ <=? _). Qed.
Lemma selection_from_on s a b p : on s -> selection_from s a b = Some p -> on p.
Proof. unfold selection_from. intros HS. destruct (_ <=? _); intros E; inversion E. exact HS. Qed.
Lemma selection_before_mv s a b : selection_before (mv s) a b = option_map mv (selection_before s a b).
Proof. unfold selection_before. destruct (checked_sub b 1); [apply selection_from_mv|reflexivity]. Qed.
Lemma selection_before_on s a b p : on s -> selection_before s a b = Some p -> on p.
Proof. unfold selection_before. destruct (checked_sub b 1); [apply selection_from_on|discriminate]. Qed.

Lemma split_with_mv s o : on s -> on o ->
  split_with (mv s) (mv o) = rmap (fun '(a, b) => (option_map mv a, option_map mv b)) (split_with s o).
Proof.
  intros HS HO. unfold split_with. cbn [mv sel_line start_idx end_idx]. rewrite HS, HO, !N.eqb_refl. unfold rmap. cbn [bind].
  rewrite !selection_from_mv. now destruct (0 <? start_idx o).
Qed.
Lemma split_with_on s o a b : on s -> split_with s o = Ok (a, b) -> (forall p, a = Some p -> on p) /\ (forall p, b = Some p -> on p).
Proof.
  intros HS. unfold split_with. destruct (N.eqb _ _); [|discriminate]. intros E. inversion E. split; intros p Hp.
  - destruct (0 <? start_idx o); [eapply selection_from_on; eauto|discriminate].
  - eapply selection_from_on; eauto.
Qed.

Lemma opt_list_mv o : opt_list (option_map mv o) = map mv (opt_list o).
Proof. now destruct o. Qed.
Lemma last_map {A B} (f : A -> B) xs d : last (map f xs) (f d) = f (last xs d).
Proof. induction xs as [|x [|y xs] IH]; [reflexivity..|exact IH]. Qed.
Lemma windows2_map {A B} (f : A -> B) xs : windows2 (map f xs) = map (fun '(a, b) => (f a, f b)) (windows2 xs).
Proof. induction xs as [|x [|y xs] IH]; [reflexivity..|]. cbn [map windows2] in *. now rewrite IH. Qed.
Lemma filter_map_map {A B C} (f : B -> option C) (g : A -> B) xs : filter_map f (map g xs) = filter_map (fun x => f (g x)) xs.
Proof. induction xs as [|x xs IH]; [reflexivity|]. cbn [map filter_map]. now rewrite IH. Qed.
Lemma filter_map_mv {A} (f g : A -> option LLSelection) xs : (forall x, g x = option_map mv (f x)) ->
  filter_map g xs = map mv (filter_map f xs).
Proof. intros H. induction xs as [|x xs IH]; [reflexivity|]. cbn [filter_map]. rewrite H, IH. now destruct (f x). Qed.

Lemma split_by_mv {A} (m : matcher A) s : on s -> same m -> split_by (mv s) m = rmap (map mv) (split_by s m).
Proof.
  intros HS HM. unfold split_by. rewrite (find_by_mv m s HS HM). destruct (find_by s m) as [found| |]; try reflexivity.
  unfold rmap. cbn [bind]. destruct found as [|x [|y found]]; [reflexivity| |].
  - change (map mv1 [x]) with [mv1 x]. cbv iota. cbn [bind]. rewrite map_app, <- !opt_list_mv, <- selection_before_mv, <- selection_from_mv. reflexivity.
  - change (map mv1 (x :: y :: found)) with (mv1 x :: mv1 y :: map mv1 found). cbv iota zeta. cbn [bind].
    change (mv1 x :: mv1 y :: map mv1 found) with (map mv1 (x :: y :: found)).
    rewrite last_map, windows2_map, filter_map_map, !map_app, <- !opt_list_mv, <- selection_before_mv, <- selection_from_mv.
    rewrite (filter_map_mv (fun '(w0, w1) => selection_before s (S (end_idx (fst w0))) (start_idx (fst w1)))); [reflexivity|].
    intros [a b]. rewrite <- selection_before_mv. reflexivity.
Qed.

Lemma filter_map_Forall {A B} (P : B -> Prop) (f : A -> option B) xs : (forall x y, f x = Some y -> P y) -> Forall P (filter_map f xs).
Proof. intros H. induction xs as [|x xs IH]; cbn [filter_map]; [constructor|]. destruct (f x) eqn:E; [constructor; eauto|assumption]. Qed.
Lemma opt_list_Forall {A} (P : A -> Prop) o : (forall x, o = Some x -> P x) -> Forall P (opt_list o).
Proof. intros H. destruct o; cbn [opt_list]; constructor; auto. Qed.

Lemma split_by_on {A} (m : matcher A) s ps : on s -> split_by s m = Ok ps -> Forall on ps.
Proof.
  intros HS. unfold split_by. destruct (find_by s m) as [found| |]; try discriminate. cbn [bind].
  destruct found as [|x [|y found]]; intros E; inversion E; [repeat constructor; auto| |].
  - rewrite Forall_app. split; apply opt_list_Forall; intros p; [now apply selection_before_on|now apply selection_from_on].
  - rewrite !Forall_app. split; [|split].
    + apply opt_list_Forall. intros p. now apply selection_before_on.
    + match goal with |- Forall on ?l => change l with (filter_map (fun '(w0, w1) =>
               selection_before s (S (end_idx (fst w0))) (start_idx (fst w1))) (windows2 (x :: y :: found))) end.
      apply filter_map_Forall. intros [a b] p. now apply selection_before_on.
    + apply opt_list_Forall. intros p. now apply selection_from_on.
Qed.

Lemma trim_selection_mv {A} (m : matcher A) s b1 b2 : on s -> same m ->
  trim_selection (mv s) m b1 b2 = rmap (option_map mv) (trim_selection s m b1 b2).
Proof.
  intros HS HM. unfold trim_selection, line_of. cbn [mv sel_line start_idx end_idx]. rewrite HS.
  rewrite (HM (Fwd (start_idx s))), (HM (Bwd (end_idx s))).
  set (x := m (Fwd (start_idx s)) (rc_line rc')). set (y := m (Bwd (end_idx s)) (rc_line rc')).
  destruct b1; [destruct x; cbn [bind]; try reflexivity|cbn [bind]];
    (destruct b2; [destruct y; cbn [bind]; try reflexivity|cbn [bind]]); unfold rmap; cbn [bind]; now destruct (_ && _).
Qed.
Lemma trim_selection_on {A} (m : matcher A) s b1 b2 p : on s -> trim_selection s m b1 b2 = Ok (Some p) -> on p.
Proof.
  intros HS. unfold trim_selection. set (x := m _ _). set (y := m (Bwd _) _).
  destruct b1; [destruct x; cbn [bind]; try discriminate|cbn [bind]];
    (destruct b2; [destruct y; cbn [bind]; try discriminate|cbn [bind]]); destruct (_ && _); intros E; inversion E; exact HS.
Qed.

(** ** The resolvers *)

Lemma finish_mv {t : ty} s (v : den t) : finish_with_attr (mv s) v = finish_with_attr s v.
Proof. reflexivity. Qed.

Lemma finish_with_mv {t : ty} {A} (f : A -> den t) xs : finish_with (map mv1 xs) f = finish_with xs f.
Proof. unfold finish_with. rewrite map_map. apply map_ext. now intros [s a]. Qed.

Lemma flat_map_mv1 {A B} (f : LLSelection * A -> list B) xs : (forall x, f (mv1 x) = f x) -> flat_map f (map mv1 xs) = flat_map f xs.
Proof. intros H. induction xs as [|x xs IH]; [reflexivity|]. cbn [map flat_map]. now rewrite H, IH. Qed.

Lemma find_resolver_mv {A} t (m : matcher A) (f : A -> den t) s : on s -> same m -> find_resolver t m f (mv s) = find_resolver t m f s.
Proof.
  intros HS HM. unfold find_resolver. rewrite (find_by_mv m s HS HM). destruct (find_by s m); try reflexivity.
  unfold rmap. cbn [bind]. now rewrite finish_with_mv.
Qed.
Lemma find_both_resolver_mv {A} t (m : matcher A) (f : A -> den t) s : on s -> same m ->
  find_both_resolver t m f (mv s) = find_both_resolver t m f s.
Proof.
  intros HS HM. unfold find_both_resolver. rewrite (find_both_mv m s HS HM). destruct (find_by_forwards_and_backwards s m); try reflexivity.
  unfold rmap. cbn [bind]. now rewrite finish_with_mv.
Qed.

Lemma text_match_mv t (r : TextMatch t) s : on s -> same x_token_text -> text_match_go r (mv s) = text_match_go r s.
Proof.
  intros HS HM. unfold text_match_go. rewrite (find_by_mv _ s HS HM). destruct (find_by s x_token_text); try reflexivity.
  unfold rmap. cbn [bind]. f_equal. f_equal. apply flat_map_mv1. now intros [? ?].
Qed.
Lemma clause_keyword_mv r s : on s -> same x_token_text -> clause_keyword_go r (mv s) = clause_keyword_go r s.
Proof.
  intros HS HM. unfold clause_keyword_go. rewrite (find_by_mv _ s HS HM). destruct (find_by s x_token_text); try reflexivity.
  unfold rmap. cbn [bind]. f_equal. f_equal. apply flat_map_mv1. now intros [? ?].
Qed.
Lemma pos_mv dict noun s : on s -> same (x_all2 (x_attr_eq TTextTag TextTag_eqb WORD) x_token_text) -> pos_go dict noun (mv s) = pos_go dict noun s.
Proof.
  intros HS HM. unfold pos_go. rewrite (find_by_mv _ s HS HM). destruct (find_by s _); try reflexivity.
  unfold rmap. cbn [bind]. f_equal. f_equal. apply flat_map_mv1. now intros [? [? ?]].
Qed.

Lemma clause_loop_mv : same x_whitespace -> same (x_attr TKeyword) -> forall cs found, Forall on cs ->
  clause_loop (map mv cs) found = clause_loop cs found.
Proof.
  intros HW HK. induction cs as [|c cs IH]; intros found HF; [reflexivity|]. inversion HF; subst. cbn [map clause_loop].
  unfold trim. rewrite (trim_selection_mv _ c true true) by assumption. destruct (trim_selection c x_whitespace true true) as [[p|]| |]; try reflexivity.
  - unfold rmap at 1. cbn [bind option_map]. rewrite (first_backwards_mv _ c) by assumption.
    destruct (match_first_backwards c (x_attr TKeyword)) as [k| |]; try reflexivity. unfold rmap. cbn [bind].
    destruct k as [[q k]|]; cbn [option_map mv1 fst snd]; [destruct k|]; rewrite IH by assumption; reflexivity.
  - unfold rmap. cbn [bind option_map]. now apply IH.
Qed.

Lemma clause_mv s : on s -> same x_separator -> same x_whitespace -> same (x_attr TKeyword) -> clause_go (mv s) = clause_go s.
Proof.
  intros HS HX HW HK. unfold clause_go. rewrite (split_by_mv _ s HS HX).
  destruct (split_by s x_separator) as [cs| |] eqn:E; try reflexivity. pose proof (split_by_on _ s cs HS E) as HF.
  unfold rmap at 1. cbn [bind]. destruct cs as [|c [|c2 cs]]; [reflexivity| |].
  - inversion HF; subst. cbn [map]. unfold trim. rewrite (trim_selection_mv _ c true true) by assumption.
    destruct (trim_selection c x_whitespace true true) as [[p|]| |]; try reflexivity.
    unfold rmap at 1. cbn [bind option_map]. rewrite (first_backwards_mv _ c) by assumption.
    destruct (match_first_backwards c (x_attr TKeyword)) as [k| |]; try reflexivity. unfold rmap. cbn [bind].
    destruct k as [[q k]|]; reflexivity.
  - cbn [map]. change (mv c :: mv c2 :: map mv cs) with (map mv (c :: c2 :: cs)). now rewrite clause_loop_mv.
Qed.

Section Amounts.
Context (parse : str -> option Decimal) (r : AmountResolver).
Context (HN : same x_number) (HD : same (x_token_has_any TChar N.eqb (delimiters r)))
        (HP : same (x_token_has_any TChar N.eqb [decimal r])).

Definition mvst (st : LLSelection * option LLSelection * str) : LLSelection * option LLSelection * str :=
  (mv (fst (fst st)), option_map mv (snd (fst st)), snd st).
Definition onst (st : LLSelection * option LLSelection * str) : Prop := on (fst (fst st)).

Lemma delim_loop_mv fuel : forall s lv ns, on s -> delim_loop r fuel (mv s) (option_map mv lv) ns = rmap mvst (delim_loop r fuel s lv ns).
Proof.
  induction fuel as [|fuel IH]; intros s lv ns HS; [reflexivity|]. cbn [delim_loop].
  rewrite (first_forwards_mv _ s) by assumption. destruct (match_first_forwards s _) as [[[p c]|]| |] eqn:E; try reflexivity.
  apply first_forwards_on in E; [|assumption]. unfold rmap at 1. cbn [bind option_map mv1 fst snd].
  rewrite (first_forwards_mv _ p) by assumption. destruct (match_first_forwards p _) as [[[q [a text]]|]| |] eqn:E2; try reflexivity.
  apply first_forwards_on in E2; [|assumption]. unfold rmap at 1. cbn [bind option_map mv1 fst snd].
  exact (IH q None (ns ++ text) E2).
Qed.
Lemma delim_loop_on fuel : forall s lv ns st, on s -> delim_loop r fuel s lv ns = Ok st -> onst st.
Proof.
  induction fuel as [|fuel IH]; intros s lv ns st HS; [discriminate|]. cbn [delim_loop].
  destruct (match_first_forwards s _) as [[[p c]|]| |] eqn:E; cbn [bind]; try discriminate; [|intros E1; inversion E1; exact HS].
  apply first_forwards_on in E; [|assumption].
  destruct (match_first_forwards p _) as [[[q [a text]]|]| |] eqn:E2; cbn [bind]; try discriminate; [|intros E1; inversion E1; exact E].
  apply first_forwards_on in E2; [|assumption]. apply IH. exact E2.
Qed.

Lemma decimal_part_mv st : onst st -> decimal_part r (mvst st) = rmap mvst (decimal_part r st).
Proof.
  destruct st as [[s lv] ns]. unfold onst. cbn [fst snd]. intros HS. unfold mvst at 1. cbn [fst snd]. unfold decimal_part.
  destruct lv as [p|]; cbn [option_map]; [reflexivity|].
  rewrite (first_forwards_mv _ s) by assumption.
  destruct (match_first_forwards s (x_token_has_any TChar N.eqb [decimal r])) as [[[p c]|]| |] eqn:E; try reflexivity.
  - apply first_forwards_on in E; [|assumption]. unfold rmap at 1. cbn [bind option_map mv1 fst snd].
    rewrite (first_forwards_mv _ p) by assumption.
    destruct (match_first_forwards p x_number) as [[[q [a text]]|]| |]; reflexivity.
  - unfold rmap at 1. cbn [bind option_map].
    rewrite (first_forwards_mv _ s) by assumption.
    destruct (match_first_forwards s x_number) as [[[q [a text]]|]| |]; reflexivity.
Qed.
Lemma decimal_part_on st st' : onst st -> decimal_part r st = Ok st' -> onst st'.
Proof.
  destruct st as [[s lv] ns]. unfold onst. cbn [fst snd]. intros HS. unfold decimal_part.
  destruct lv as [p|]; [intros E; inversion E; exact HS|].
  destruct (match_first_forwards s (x_token_has_any TChar N.eqb [decimal r])) as [[[p c]|]| |] eqn:E; cbn [bind]; try discriminate.
  - apply first_forwards_on in E; [|assumption].
    destruct (match_first_forwards p x_number) as [[[q [a text]]|]| |] eqn:E2; cbn [bind]; try discriminate; intros E1; inversion E1; auto.
    apply first_forwards_on in E2; assumption.
  - destruct (match_first_forwards s x_number) as [[[q [a text]]|]| |] eqn:E2; cbn [bind]; try discriminate; intros E1; inversion E1; auto.
    apply first_forwards_on in E2; assumption.
Qed.

Lemma amount_loop_mv fuel : forall s acc, on s -> amount_loop parse r fuel (mv s) acc = amount_loop parse r fuel s acc.
Proof.
  induction fuel as [|fuel IH]; intros s acc HS; [reflexivity|]. cbn [amount_loop].
  rewrite (find_first_mv _ s) by assumption. destruct (find_first_by s x_number) as [[[p [a text]]|]| |] eqn:E; try reflexivity.
  apply find_first_on in E; [|assumption]. unfold rmap at 1. cbn [bind option_map mv1 fst snd].
  pose proof (delim_loop_mv fuel p None text E) as HDl. cbn [option_map] in HDl. rewrite HDl.
  destruct (delim_loop r fuel p None text) as [st| |] eqn:ED; try reflexivity. apply delim_loop_on in ED; [|assumption].
  unfold rmap at 1. cbn [bind]. rewrite decimal_part_mv by assumption.
  destruct (decimal_part r st) as [[[q lv] ns]| |] eqn:EP; try reflexivity. apply decimal_part_on in EP; [|assumption].
  unfold rmap at 1. cbn [bind mvst fst snd]. destruct (parse ns) as [d|]; try reflexivity. cbn [expect bind].
  unfold onst in EP. cbn [fst] in EP. rewrite split_with_mv by assumption.
  destruct (split_with s q) as [[x y]| |] eqn:EW; try reflexivity. apply split_with_on in EW; [|assumption].
  unfold rmap. cbn [bind]. replace (finish_with_attr (t := TAmount) (match option_map mv lv with Some s0 => s0 | None => mv q end) d)
    with (finish_with_attr (t := TAmount) (match lv with Some s0 => s0 | None => q end) d) by (now destruct lv).
  destruct y as [y|]; cbn [option_map]; [|reflexivity]. apply IH. now apply (proj2 EW).
Qed.

Lemma amount_mv s : on s -> amount_go parse r (mv s) = amount_go parse r s.
Proof. intros HS. unfold amount_go. rewrite line_len_mv by assumption. f_equal. now apply amount_loop_mv. Qed.
End Amounts.

End Move.

(** ** Code written by users *)

(** What [find] finds, apart from the positions. *)
Lemma find_contents {A} l l' (m : matcher A) : contents l = contents l' -> (forall d, m d l = m d l') ->
  rmap (map found) (find l m) = rmap (map found) (find l' m).
Proof.
  intros HC HM. unfold find. rewrite <- (contents_len _ _ HC).
  induction (seq 0 (length (ll_tokens l))) as [|i is IH]; [reflexivity|]. rewrite !flat_mapM_cons, <- (HM (Fwd i)).
  assert (EP : forall j, (exists a b, nth_error (ll_tokens l) j = Some a /\ nth_error (ll_tokens l') j = Some b)
                         \/ (nth_error (ll_tokens l) j = None /\ nth_error (ll_tokens l') j = None)).
  { intros j. pose proof (contents_nth l l' j HC) as E. destruct (nth_error (ll_tokens l) j), (nth_error (ll_tokens l') j); try discriminate E; eauto. }
  destruct (m (Fwd i) l) as [ms| |]; cbn [bind]; try reflexivity.
  match goal with |- rmap _ (bind ?x _) = rmap _ (bind ?y _) => assert (EM : rmap (map found) x = rmap (map found) y) end.
  { clear IH. induction ms as [|[a j] ms IH]; [reflexivity|]. cbn [mapM]. unfold pos_start_at, pos_end_at in *.
    destruct (EP i) as [(t1 & t2 & E1 & E2)|[E1 E2]]; rewrite E1, E2 in *; cbn [expect bind] in *; [|reflexivity].
    destruct (EP j) as [(t3 & t4 & -> & ->)|[-> ->]]; cbn [expect bind]; [|reflexivity].
    match goal with |- rmap _ (bind ?x _) = rmap _ (bind ?y _) => destruct x as [xs| |], y as [ys| |] end; unfold rmap in *; cbn [bind map found] in *; congruence. }
  match goal with |- rmap _ (bind ?x ?f) = rmap _ (bind ?y ?g) => destruct x as [xs| |], y as [ys| |] end; unfold rmap in *; cbn [bind] in *; try congruence.
  destruct (flat_mapM _ is) as [zs| |], (flat_mapM _ is) as [ws| |]; cbn [bind] in *; rewrite ?map_app; congruence.
Qed.

(** A user's matcher sees tokens, and attributes of the types it asks for. *)
Lemma execute_same {A} (P : ty -> Prop) h (p : program A) l l' : asks P h p ->
  contents l = contents l' ->
  (forall has B (m : matcher B), (has = true -> h = true) -> lib_matcher P has B m -> forall d, m d l = m d l') ->
  (forall t, P t -> query l t = query l' t) ->
  (forall tg incs, (forall x, In x incs -> P (projT1 x)) -> show tg l incs = show tg l' incs) ->
  execute l p = execute l' p.
Proof.
  intros HA HC HM HQ HS.
  assert (EA : forall d idx, dir_after d idx l = dir_after d idx l').
  { intros [i|i] idx; [|reflexivity]. cbn [dir_after]. now rewrite (contents_len _ _ HC). }
  assert (ET : forall d, dir_text_token d l = dir_text_token d l').
  { intros d. pose proof (HM false _ x_token_text ltac:(discriminate) (LM_token_text _) d) as E. unfold x_token_text in E.
    destruct (dir_text_token d l) as [[x|]| |], (dir_text_token d l') as [[y|]| |]; cbn [rmap bind opt_list] in E; congruence. }
  induction HA as [A out|A d t k HP _ IH|A d t eqT v k HP _ IH|A d t eqT set k Hh HP _ IH|A d k _ IH|A d idx k _ IH|A k HK _ IH|A t k HP _ IH
                  |A B go k _ IHg HK _ IH|A tg incs k HP _ IH|A p]; cbn [execute].
  - reflexivity.
  - pose proof (HM false _ (x_attr t) ltac:(discriminate) (LM_attr _ _ HP) d) as E. unfold x_attr in E. rewrite E.
    destruct (dir_attr t d l'); cbn [bind]; auto.
  - pose proof (HM false _ (x_attr_eq t eqT v) ltac:(discriminate) (LM_attr_eq _ _ _ _ HP) d) as E. unfold x_attr_eq in E. rewrite E.
    destruct (dir_attr_eq t eqT v d l'); cbn [bind]; auto.
  - pose proof (HM true _ (x_token_has_any t eqT set) ltac:(auto) (LM_token_has_any _ _ _ _ HP) d) as E. unfold x_token_has_any in E. rewrite E.
    destruct (dir_token_attr_one_of t eqT set d l'); cbn [bind]; auto.
  - rewrite ET. destruct (dir_text_token d l'); cbn [bind]; auto.
  - rewrite EA. auto.
  - rewrite (HK _ (ll_tokens l') HC). auto.
  - rewrite (HQ t HP). destruct (query l' t); cbn [bind]; auto.
  - pose proof (find_contents l l' (fun d l => execute l (go d)) HC IHg) as EF.
    unfold rmap in EF. destruct (find l _) as [r| |], (find l' _) as [r'| |]; cbn [bind] in *; try congruence. rewrite (HK r r') by congruence. auto.
  - rewrite (HS tg incs HP). destruct (show tg l' incs); cbn [bind]; auto.
  - reflexivity.
Qed.

Section Calls.
Variables (rc rc' : RcLine).
Hypothesis HL : length (ll_tokens (rc_line rc)) = length (ll_tokens (rc_line rc')).

Lemma at_range_mv s : at_range rc' s = mv rc' (at_range rc s).
Proof. reflexivity. Qed.
Lemma map_seen_mv {A} (xs : list (LLSelection * A)) : map seen (map (mv1 rc') xs) = map seen xs.
Proof. rewrite map_map. apply map_ext. intros [s a]. reflexivity. Qed.
Lemma opt_seen_mv {A} (o : option (LLSelection * A)) : option_map seen (option_map (mv1 rc') o) = option_map seen o.
Proof. destruct o; reflexivity. Qed.
Lemma opt_range_mv o : option_map range_of (option_map (mv rc') o) = option_map range_of o.
Proof. destruct o; reflexivity. Qed.

Lemma rmap_ext {A B} (f g : A -> B) x : (forall a, f a = g a) -> rmap f x = rmap g x.
Proof. intros H. unfold rmap. destruct x; cbn [bind]; auto. now rewrite H. Qed.

Lemma perform_same (P : ty -> Prop) h X (c : call X) : call_asks P h X c ->
  (forall A (go : direction -> program A), (forall d, asks P h (go d)) -> same rc rc' (matcher_by go)) ->
  perform rc' c = perform rc c.
Proof.
  intros HC HS. assert (HO : forall s, on rc (at_range rc s)) by reflexivity.
  destruct HC; cbn [perform]; rewrite at_range_mv.
  - rewrite (split_by_mv rc rc'), rmap_rmap by auto. apply rmap_ext. intros xs. rewrite map_map. reflexivity.
  - rewrite (find_by_mv rc rc'), rmap_rmap by auto. apply rmap_ext. apply map_seen_mv.
  - rewrite (find_first_mv rc rc'), rmap_rmap by auto. apply rmap_ext. apply opt_seen_mv.
  - rewrite (find_both_mv rc rc'), rmap_rmap by auto. apply rmap_ext. apply map_seen_mv.
  - rewrite (match_forwards_mv rc rc'), rmap_rmap by auto. apply rmap_ext. apply map_seen_mv.
  - rewrite (first_forwards_mv rc rc'), rmap_rmap by auto. apply rmap_ext. apply opt_seen_mv.
  - rewrite (match_backwards_mv rc rc'), rmap_rmap by auto. apply rmap_ext. apply map_seen_mv.
  - rewrite (first_backwards_mv rc rc'), rmap_rmap by auto. apply rmap_ext. apply opt_seen_mv.
  - unfold sel_after. rewrite (line_len_mv rc rc') by auto. cbn [start_idx end_idx mv at_range sel_line].
    destruct (sub_usize _ _) as [n| |]; cbn [bind rmap]; auto. destruct (Nat.eqb _ _); reflexivity.
  - rewrite (at_range_mv o), (split_with_mv rc rc') by auto.
    rewrite rmap_rmap. apply rmap_ext. intros [p q]. now rewrite !opt_range_mv.
  - unfold trim. rewrite (trim_selection_mv rc rc'), rmap_rmap by auto. apply rmap_ext. apply opt_range_mv.
  - unfold trim_start. rewrite (trim_selection_mv rc rc'), rmap_rmap by auto. apply rmap_ext. apply opt_range_mv.
  - unfold trim_end. rewrite (trim_selection_mv rc rc'), rmap_rmap by auto. apply rmap_ext. apply opt_range_mv.
Qed.

Lemma carry_out_same (P : ty -> Prop) h t (c : code t) : code_asks P h c ->
  (forall A (go : direction -> program A), (forall d, asks P h (go d)) -> same rc rc' (matcher_by go)) ->
  carry_out rc' c = carry_out rc c.
Proof.
  intros HC HS. induction HC as [out keeps|X c k Hc _ IH|p]; cbn [carry_out]; auto.
  rewrite (perform_same P h X c Hc HS). destruct (perform rc c); cbn [bind]; auto.
Qed.
End Calls.

(** The resolver of a step. *)
Definition resolver_of (s : any_step) : Resolver (writes s) :=
  match s with
  | Lib (RunTextMatch t m) => text_match_go m
  | Lib (RunClauseKeyword r) => clause_keyword_go r
  | Lib RunClause => clause_go
  | Lib (RunPOSTag dict noun) => pos_go dict noun
  | Lib (RunAmount parse r) => amount_go parse r
  | Find t _ e f => find_resolver t (matcher_of e) f
  | FindBoth t _ e f => find_both_resolver t (matcher_of e) f
  | User t c _ _ _ => resolver_by c
  end.
Lemma run_any_run id l s : run_any id l s = run id l (resolver_of s).
Proof. now destruct s as [[]| | |]. Qed.

(** C58: equal matches, equal assignments. *)
Lemma resolver_same s id l id' l' :
  contents l = contents l' ->
  (forall has A (m : matcher A), (has = true -> uses_chars s = true) -> lib_matcher (fun t => In t (reads s)) has A m ->
     forall d, m d l = m d l') ->
  (forall t, In t (reads s) -> query l t = query l' t) ->
  (forall tg incs, (forall x, In x incs -> In (projT1 x) (reads s)) -> show tg l incs = show tg l' incs) ->
  resolver_of s (whole id l) = resolver_of s (whole id' l').
Proof.
  intros HC HM HQ HS. pose proof (contents_len _ _ HC) as HL. set (rc := mkRc id l). set (rc' := mkRc id' l').
  assert (EW : whole id' l' = mv rc' (whole id l)) by (unfold whole, mv; cbn [start_idx end_idx]; now rewrite HL).
  assert (HO : on rc (whole id l)) by reflexivity.
  rewrite EW.
  assert (LT : forall P : ty -> Prop, lib_matcher P false str x_token_text) by (intros; apply LM_token_text).
  destruct s as [[t m|r| |dict noun|parse r]|t A e f|t A e f|t c R h HA]; cbn [resolver_of reads uses_chars writes] in *; symmetry.
  - apply (text_match_mv rc rc'); auto. intros d. eapply HM; [|apply LT]. discriminate.
  - apply (clause_keyword_mv rc rc'); auto. intros d. eapply HM; [|apply LT]. discriminate.
  - apply (clause_mv rc rc'); auto; intros d.
    + apply (HM false _ x_separator); [discriminate|]. unfold x_separator.
      apply (LM_any2 _ false false); [apply LM_attr|apply LM_attr_eq]; cbn; auto.
    + apply (HM false _ x_whitespace); [discriminate|]. apply LM_attr_eq. cbn. auto.
    + apply (HM false _ (x_attr TKeyword)); [discriminate|]. apply LM_attr. cbn. auto.
  - apply (pos_mv rc rc'); auto; intros d. apply (HM false); [discriminate|].
    apply (LM_all2 _ false false); [apply LM_attr_eq; cbn; auto|apply LT].
  - apply (amount_mv rc rc'); auto; intros d.
    + apply (HM false); [discriminate|]. unfold x_number. apply (LM_all2 _ false false); [apply LM_attr_eq; cbn; auto|apply LT].
    + apply (HM true _ (x_token_has_any TChar N.eqb (delimiters r))); [auto|]. apply LM_token_has_any. cbn. auto.
    + apply (HM true _ (x_token_has_any TChar N.eqb [decimal r])); [auto|]. apply LM_token_has_any. cbn. auto.
  - apply (find_resolver_mv rc rc'); auto; intros d. apply (HM (uses_has_any e)); [auto|]. apply types_lib. auto.
  - apply (find_both_resolver_mv rc rc'); auto; intros d. apply (HM (uses_has_any e)); [auto|]. apply types_lib. auto.
  - unfold resolver_by. apply (carry_out_same rc rc' HL (fun t' => In t' R) h); [apply HA|].
    intros A go Hgo d. exact (execute_same _ h (go d) l l' (Hgo d) HC HM HQ HS).
Qed.

End ThmParam.
