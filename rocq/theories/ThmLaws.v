(** Laws between operations: C60 - C63. *)

From Verif Require Export SpecLaws ThmOrder ThmNest ThmSel ThmJoin.

Section ThmLaws.
Context {UC : Unicode} {U : UserTypes}.

(** ** C60 Selections *)

Lemma range_incl_split a k b : a <= k -> k < b -> range_incl a b = range_incl a k ++ range_incl (S k) b.
Proof.
  intros H1 H2. unfold range_incl. replace (S b - a) with ((S k - a) + (S b - S k)) by lia. rewrite seq_app. do 2 f_equal. lia.
Qed.

(** C60: what is found in two adjacent selections is found in the two together. *)
Lemma thm_C60_adjacent :
  forall A p q (m : matcher A), side_by_side p q ->
    find_by (together p q) m = both (find_by p m) (find_by q m)
    /\ find_by_forwards_and_backwards (together p q) m
       = both (find_by_forwards_and_backwards p m) (find_by_forwards_and_backwards q m).
Proof.
  intros A p q m (EL & Hp & E & Hq). unfold find_by, find_by_forwards_and_backwards, together, line_of, both. cbn [start_idx end_idx sel_line].
  rewrite (range_incl_split (start_idx p) (end_idx p) (end_idx q)) by lia. rewrite !flat_mapM_app, <- E, EL. split; reflexivity.
Qed.

(** ... so the first find is the first one on the left, or else the first one on the right. *)
Lemma thm_C60_first :
  forall A p q (m : matcher A) found, side_by_side p q -> find_by q m = Ok found ->
    find_first_by (together p q) m
    = (o <- find_first_by p m;; match o with Some x => Ok (Some x) | None => find_first_by q m end).
Proof.
  intros A p q m found HA HF. unfold find_first_by. rewrite (proj1 (thm_C60_adjacent A p q m HA)). unfold both, rmap. rewrite HF.
  destruct (find_by p m) as [[|x xs]| |]; reflexivity.
Qed.

Lemma both_nil_l {A} (x : res (list A)) : both (Ok []) x = x.
Proof. unfold both. cbn [bind]. now destruct x. Qed.
Lemma both_nil_r {A} (x : res (list A)) : both x (Ok []) = x.
Proof. unfold both. destruct x; try reflexivity. cbn [bind]. now rewrite app_nil_r. Qed.

(** C60: the parts split_with returns and the selection it removes make up the whole. *)
Lemma thm_C60_split_with :
  forall A s o lo ro (m : matcher A),
    sel_line o = sel_line s -> start_idx s <= start_idx o -> start_idx o <= end_idx o -> end_idx o <= end_idx s ->
    split_with s o = Ok (lo, ro) ->
    find_by s m = both (search (fun p => find_by p m) lo) (both (find_by o m) (search (fun p => find_by p m) ro)).
Proof.
  intros A s o lo ro m EL H1 H2 H3. unfold split_with. rewrite EL, N.eqb_refl. intros E. inversion E; subst lo ro. clear E.
  assert (ER : both (find_by o m) (search (fun p => find_by p m) (selection_from s (S (end_idx o)) (end_idx s)))
             = find_by (mkSel (sel_line s) (start_idx o) (end_idx s)) m).
  { unfold selection_from. rewrite Nat.max_l, Nat.min_id by lia. destruct (S (end_idx o) <=? end_idx s) eqn:E; cbn [search].
    - apply Nat.leb_le in E.
      rewrite <- (proj1 (thm_C60_adjacent A o (mkSel (sel_line s) (S (end_idx o)) (end_idx s)) m ltac:(unfold side_by_side; cbn; auto))).
      unfold together. cbn [end_idx]. now rewrite EL.
    - apply Nat.leb_gt in E. rewrite both_nil_r. replace (end_idx s) with (end_idx o) by lia. destruct o. cbn in *. now subst. }
  rewrite ER. destruct (0 <? start_idx o) eqn:E0; [apply Nat.ltb_lt in E0|apply Nat.ltb_ge in E0].
  - unfold selection_from. rewrite Nat.max_id. rewrite Nat.min_l by lia. destruct (start_idx s <=? start_idx o - 1) eqn:E; cbn [search].
    + apply Nat.leb_le in E.
      rewrite <- (proj1 (thm_C60_adjacent A (mkSel (sel_line s) (start_idx s) (start_idx o - 1)) (mkSel (sel_line s) (start_idx o) (end_idx s)) m
         ltac:(unfold side_by_side; cbn; split; [reflexivity|lia]))). unfold together. cbn. now destruct s.
    + apply Nat.leb_gt in E. rewrite both_nil_l. replace (start_idx o) with (start_idx s) by lia. now destruct s.
  - cbn [search]. rewrite both_nil_l. replace (start_idx o) with (start_idx s) by lia. now destruct s.
Qed.

(** C60: trim is trim_start and trim_end, in either order. *)
Lemma thm_C60_trim :
  forall A s (m : matcher A) fs bs,
    sel_ok s -> bounded m (line_of s) ->
    m (Fwd (start_idx s)) (line_of s) = Ok fs -> m (Bwd (end_idx s)) (line_of s) = Ok bs ->
    trim s m = (o <- trim_start s m;; match o with Some p => trim_end p m | None => Ok None end)
    /\ trim s m = (o <- trim_end s m;; match o with Some p => trim_start p m | None => Ok None end).
Proof.
  intros A s m fs bs Hs HB Hf Hb. unfold trim, trim_start, trim_end, trim_selection. rewrite Hf, Hb. cbn [bind].
  set (ns := match fs with (_, j) :: _ => j + 1 | [] => start_idx s end).
  set (ne := match bs with (_, j) :: _ => match checked_sub j 1 with Some k => k | None => j end | [] => end_idx s end).
  assert (N1 : start_idx s <= ns).
  { unfold ns. destruct fs as [|[a j] fs]; [lia|]. unfold sel_ok, line_len in Hs.
    pose proof (HB (Fwd (start_idx s)) _ a j ltac:(simpl; lia) Hf (or_introl eq_refl)) as HI. simpl in HI. lia. }
  assert (N2 : ne <= end_idx s).
  { unfold ne. destruct bs as [|[a j] bs]; [lia|]. unfold sel_ok, line_len in Hs.
    pose proof (HB (Bwd (end_idx s)) _ a j ltac:(simpl; lia) Hb (or_introl eq_refl)) as HI. simpl in HI.
    unfold checked_sub. destruct (1 <=? j); lia. }
  assert (HS : start_idx s <=? end_idx s = true) by (apply Nat.leb_le; unfold sel_ok in Hs; lia).
  rewrite HS. cbn [andb]. split.
  - destruct (ns <=? end_idx s) eqn:E.
    + cbn [start_idx end_idx sel_line bind]. unfold line_of in *. cbn [sel_line]. rewrite Hb. cbn [bind]. fold ne. rewrite andb_diag.
      destruct (ns <=? ne) eqn:E2; rewrite ?andb_true_r, ?andb_false_r; [|reflexivity].
      apply Nat.leb_le in E2. now rewrite (proj2 (Nat.leb_le (start_idx s) ne)) by lia.
    + apply Nat.leb_gt in E. rewrite (proj2 (Nat.leb_gt ns ne)) by lia. now rewrite andb_false_r.
  - rewrite andb_diag. destruct (start_idx s <=? ne) eqn:E; [|reflexivity].
    cbn [start_idx end_idx sel_line bind]. unfold line_of in *. cbn [sel_line]. rewrite Hf. cbn [bind]. fold ns. rewrite E. reflexivity.
Qed.

(** C60: seq is extending by the second matcher what the first one finds. *)
Lemma thm_C60_seq_forwards :
  forall A B s (ma : matcher A) (mb : matcher B),
    sel_ok s -> bounded ma (line_of s) ->
    match_forwards s (x_seq2 ma mb) = (found <- match_forwards s ma;; extended (fun p => match_forwards p mb) found).
Proof.
  intros A B s ma mb Hs HB. unfold match_forwards, sel_ok in *. destruct (Nat.eqb_spec (S (end_idx s)) (line_len s)) as [E|E]; [reflexivity|].
  unfold x_seq2. destruct (ma (Fwd (S (end_idx s))) (line_of s)) as [al| |] eqn:Ea; cbn [bind]; try reflexivity.
  assert (HX : forall a j, In (a, j) al -> j < line_len s).
  { intros a j Hin. unfold line_len in *. pose proof (HB (Fwd (S (end_idx s))) al a j ltac:(simpl; lia) Ea Hin) as HI. simpl in HI. lia. }
  unfold extended. rewrite flat_mapM_map', <- flat_mapM_post. apply flat_mapM_ext. intros [a j] Hin. specialize (HX a j Hin).
  unfold go_after, dir_after. cbn [start_idx end_idx sel_line]. fold (line_len s).
  change (line_len (mkSel (sel_line s) (start_idx s) j)) with (line_len s). change (line_of (mkSel (sel_line s) (start_idx s) j)) with (line_of s).
  destruct (Nat.eqb_spec (S j) (line_len s)) as [E2|E2].
  - rewrite (proj2 (Nat.ltb_ge _ _)) by lia. reflexivity.
  - rewrite (proj2 (Nat.ltb_lt _ _)) by lia. destruct (mb (Fwd (S j)) (line_of s)); cbn [bind]; try reflexivity.
    rewrite !map_map. f_equal. apply map_ext. now intros [b k].
Qed.

Lemma thm_C60_seq_backwards :
  forall A B s (ma : matcher A) (mb : matcher B),
    match_backwards s (x_seq2 ma mb) = (found <- match_backwards s ma;; extended (fun p => match_backwards p mb) found).
Proof.
  intros A B s ma mb. unfold match_backwards. destruct (Nat.eqb_spec (start_idx s) 0) as [E|E]; [reflexivity|].
  unfold x_seq2. destruct (ma (Bwd (start_idx s - 1)) (line_of s)) as [al| |] eqn:Ea; cbn [bind]; try reflexivity.
  unfold extended. rewrite flat_mapM_map', <- flat_mapM_post. apply flat_mapM_ext. intros [a j] _.
  unfold go_after, dir_after. cbn [start_idx end_idx sel_line].
  change (line_of (mkSel (sel_line s) j (end_idx s))) with (line_of s).
  destruct (Nat.eqb_spec j 0) as [E2|E2].
  - subst. reflexivity.
  - rewrite (proj2 (Nat.ltb_lt _ _)) by lia. destruct (mb (Bwd (j - 1)) (line_of s)); cbn [bind]; try reflexivity.
    rewrite !map_map. f_equal. apply map_ext. now intros [b k].
Qed.

Lemma thm_C60_seq_find :
  forall A B s (ma : matcher A) (mb : matcher B) found,
    sel_ok s -> bounded ma (line_of s) ->
    find_by s (x_seq2 ma mb) = Ok found <->
    (fa <- find_by s ma;; extended (fun p => match_forwards p mb) fa) = Ok found.
Proof.
  intros A B s ma mb found Hs HB. unfold find_by, extended. rewrite <- flat_mapM_assoc.
  match goal with |- ?x = _ <-> ?y = _ => assert (E : x = y); [|rewrite E; reflexivity] end.
  apply flat_mapM_ext. intros i Hi. apply in_range_incl in Hi. unfold x_seq2, sel_ok in *.
  destruct (ma (Fwd i) (line_of s)) as [al| |] eqn:Ea; cbn [bind]; try reflexivity.
  rewrite flat_mapM_map', <- flat_mapM_post. apply flat_mapM_ext. intros [a j] Hin.
  unfold line_len in *. pose proof (HB (Fwd i) al a j ltac:(simpl; lia) Ea Hin) as HI. simpl in HI.
  unfold go_after, dir_after, match_forwards, line_len. cbn [start_idx end_idx sel_line].
  change (line_of (mkSel (sel_line s) i j)) with (line_of s).
  destruct (Nat.eqb_spec (S j) (length (ll_tokens (line_of s)))) as [E2|E2].
  - rewrite (proj2 (Nat.ltb_ge _ _)) by lia. reflexivity.
  - rewrite (proj2 (Nat.ltb_lt _ _)) by lia. destruct (mb (Fwd (S j)) (line_of s)); cbn [bind]; try reflexivity.
    rewrite !map_map. f_equal. apply map_ext. now intros [b k].
Qed.

(** C60: nothing is found in the parts split_by returns, and splitting them changes nothing. *)
Lemma thm_C60_split_again :
  forall A s (m : matcher A) found ps,
    sel_ok s -> bounded m (line_of s) -> find_by s m = Ok found ->
    StronglySorted le (map (fun x => end_idx (fst x)) found) ->
    split_by s m = Ok ps -> forall p, In p ps -> find_by p m = Ok [] /\ split_by p m = Ok [p].
Proof.
  intros A s m found ps Hs HB HF HS HP p Hp. destruct (thm_C27_runs A s m found Hs HB HF HS) as (ps' & E & M).
  assert (ps' = ps) by congruence. subst ps'.
  destruct (runs_inside _ _ _ M p Hp) as (EL & P1 & P2 & P3).
  assert (HX : find_by p m = Ok []); [|split; [exact HX|now apply thm_C27_no_match]].
  assert (HO : exists fp, find_by p m = Ok fp).
  { apply thm_C25_ok_iff. intros i Hi. unfold line_of. rewrite EL. apply (proj1 (thm_C25_ok_iff A s m)); [eauto|]. unfold covers in *. lia. }
  destruct HO as (fp & EF). destruct fp as [|[q a] fp]; [exact EF|exfalso].
  assert (Hq : In (q, a) ((q, a) :: fp)) by now left.
  apply (find_by_In _ _ _ _ _ EF) in Hq. destruct Hq as (Eq & Cq & ms & Em & Hin).
  apply (runs_free _ _ _ M p (start_idx q) Hp Cq). exists q, a.
  unfold line_of in *. rewrite EL in *. split.
  - apply (find_by_In s m found q a HF). split; [exact Eq|]. split; [unfold covers in *; lia|]. eauto.
  - unfold sel_ok, line_len, line_of, covers in *.
    pose proof (HB (Fwd (start_idx q)) ms a (end_idx q) ltac:(simpl; lia) Em Hin) as HI. simpl in HI. lia.
Qed.

(** ** C61 Sizes *)

Section Sizes.
Context (sz sz' : str -> N).

Lemma flush_letters_fst lt lt' ls : map fst lt = map fst lt' -> map fst (flush_letters sz lt ls) = map fst (flush_letters sz' lt' ls).
Proof. intros E. destruct ls; [exact E|]. cbn [flush_letters]. rewrite !map_app. now rewrite E. Qed.
Lemma flush_digits_fst lt lt' ds : map fst lt = map fst lt' -> map fst (flush_digits sz lt ds) = map fst (flush_digits sz' lt' ds).
Proof. intros E. destruct ds; [exact E|]. cbn [flush_digits]. rewrite !map_app. now rewrite E. Qed.

Lemma split_digit_fst cs : forall ds ls lt lt', map fst lt = map fst lt' ->
  map fst (split_digit_word sz cs ds ls lt) = map fst (split_digit_word sz' cs ds ls lt').
Proof.
  induction cs as [|c cs IH]; intros ds ls lt lt' E; cbn [split_digit_word].
  - auto using flush_letters_fst, flush_digits_fst.
  - destruct (is_ascii_digit c); [|destruct (u_alphabetic c)]; apply IH; auto using flush_letters_fst, flush_digits_fst.
    rewrite !map_app. f_equal. auto using flush_letters_fst, flush_digits_fst.
Qed.

Lemma segments_fst ws : forall lt lt' g, map fst lt = map fst lt' -> foldM (tokens_of_segment sz) ws lt = Ok g ->
  exists g', foldM (tokens_of_segment sz') ws lt' = Ok g' /\ map fst g = map fst g'.
Proof.
  induction ws as [|w ws IH]; intros lt lt' g E H; cbn [foldM] in *.
  - inversion H; subst. eauto.
  - unfold tokens_of_segment at 1 in H. unfold tokens_of_segment at 1. destruct w as [|c w]; [discriminate|].
    destruct (is_ascii_digit c).
    + destruct (str_is_ascii (c :: w)); [|discriminate]. cbn [bind] in *. eapply IH; [|exact H]. now apply split_digit_fst.
    + cbn [bind] in *. eapply IH; [|exact H]. rewrite !map_app. now rewrite E.
Qed.

Lemma resized_tokens it it' g : resized it it' -> input_ltokens sz it = Ok g ->
  exists g', input_ltokens sz' it' = Ok g' /\ map fst g = map fst g'.
Proof.
  intros [text ats|n n' ats] H; cbn [input_ltokens] in *.
  - eapply segments_fst; eauto.
  - inversion H; subst. eauto.
Qed.

Lemma resized_attrs it it' : resized it it' -> input_attrs it = input_attrs it'.
Proof. now intros []. Qed.

Lemma resized_groups input input' groups groups' : Forall2 resized input input' ->
  Forall2 (fun it g => input_ltokens sz it = Ok g) input groups ->
  Forall2 (fun it g => input_ltokens sz' it = Ok g) input' groups' -> map (map fst) groups = map (map fst) groups'.
Proof.
  intros HR. revert groups groups'. induction HR as [|it it' input input' R HR IH]; intros groups groups' F F'; inversion F; inversion F'; subst; auto.
  cbn [map]. f_equal; [|now apply IH]. destruct (resized_tokens it it' _ R ltac:(eassumption)) as (g' & E1 & E2). congruence.
Qed.

Lemma resized_log groups : forall input input' i, Forall2 resized input input' -> input_log i groups input = input_log i groups input'.
Proof.
  induction groups as [|g groups IH]; intros input input' i HR; [reflexivity|]. destruct HR as [|it it' input input' R HR]; [reflexivity|].
  cbn [input_log]. rewrite (resized_attrs _ _ R). f_equal. now apply IH.
Qed.
End Sizes.

Lemma layout_contents add xs : forall i p, map token (layout_by add i p xs) = map fst xs.
Proof. induction xs as [|[t n] xs IH]; intros i p; [reflexivity|]. cbn [layout_by map token fst]. now rewrite IH. Qed.

Lemma resized_wf input input' : Forall2 resized input input' -> Forall wf_input input -> Forall wf_input input'.
Proof.
  induction 1 as [|it it' input input' R HR IH]; intros F; [constructor|]. inversion F; subst. constructor; auto.
  unfold wf_input in *. now rewrite <- (resized_attrs _ _ R).
Qed.

Lemma alike_resized tg tg' sz sz' input input' l l' : Forall wf_input input -> Forall2 resized input input' ->
  create_line_from_input_tokens tg input sz = Ok l -> create_line_from_input_tokens tg' input' sz' = Ok l' ->
  exists lg, alike l lg l' lg.
Proof.
  intros HW HR HC HC'. pose proof (resized_wf _ _ HR HW) as HW'.
  destruct (create_facts tg sz input l HW HC) as (gs & G1 & _ & _ & T1 & _).
  destruct (create_facts tg' sz' input' l' HW' HC') as (gs' & G2 & _ & _ & T2 & _).
  pose proof (resized_groups sz sz' _ _ _ _ HR G1 G2) as EG.
  exists (creation_log (map (map fst) gs) input). split; [eapply H_create; eauto|]. split; [|split; [|reflexivity]].
  - replace (creation_log (map (map fst) gs) input) with (creation_log (map (map fst) gs') input'); [eapply H_create; eauto|].
    unfold creation_log. rewrite EG. f_equal. symmetry. now apply resized_log.
  - unfold contents. rewrite T1, T2, !layout_contents, !concat_map. now rewrite EG.
Qed.

Lemma mapM_rmap {A B C} (f : A -> res B) (g : B -> C) xs : rmap (map g) (mapM f xs) = mapM (fun x => rmap g (f x)) xs.
Proof.
  induction xs as [|x xs IH]; [reflexivity|]. cbn [mapM]. rewrite <- IH. unfold rmap.
  destruct (f x); cbn [bind]; try reflexivity. destruct (mapM f xs); reflexivity.
Qed.

Lemma alike_positions l lg l' lg' : alike l lg l' lg' -> same_but_positions l l'.
Proof.
  intros HK. pose proof (alike_attributed _ _ _ _ HK) as HT. destruct HK as (H & H' & HC & EA).
  pose proof (history_repr _ _ H) as R. pose proof (history_repr _ _ H') as R'. pose proof (contents_len _ _ HC) as EL.
  assert (EM : forall has A (m : matcher A), lib_matcher any_ty has A m -> forall d, m d l = m d l').
  { intros has A m HM. eapply lib_matcher_contents; eauto. }
  split; [exact HC|]. split; [|split; [|split]].
  - intros t. eapply query_contents; eauto.
  - intros has A m d HM. eapply EM; eauto.
  - intros has A m HM. unfold find. rewrite !ThmParam.flat_mapM_map, EL. apply flat_mapM_ext. intros i _.
    rewrite (EM has A m HM). destruct (m (Fwd i) l') as [ms| |]; cbn [bind rmap]; try reflexivity.
    change (rmap (map found) (mapM (fun '(out, j) => s <- pos_start_at l i;; e <- pos_end_at l j;; Ok (mkFind s e out)) ms)
          = rmap (map found) (mapM (fun '(out, j) => s <- pos_start_at l' i;; e <- pos_end_at l' j;; Ok (mkFind s e out)) ms)).
    rewrite !mapM_rmap. apply mapM_ext. intros [out j] _. unfold pos_start_at, pos_end_at.
    pose proof (contents_nth _ _ i HC) as Ei. pose proof (contents_nth _ _ j HC) as Ej.
    destruct (nth_error (ll_tokens l) i), (nth_error (ll_tokens l') i); try discriminate Ei; cbn [expect bind rmap]; [|reflexivity].
    destruct (nth_error (ll_tokens l) j), (nth_error (ll_tokens l') j); try discriminate Ej; reflexivity.
  - intros tg incs. eapply show_contents; eauto.
Qed.

(** C61: the size function, the declared sizes and the target only matter for positions. *)
Lemma thm_C61_sizes :
  forall tg tg' sz sz' input input' l l' ss,
    Forall wf_input input -> Forall2 resized input input' ->
    create_line_from_input_tokens tg input sz = Ok l -> create_line_from_input_tokens tg' input' sz' = Ok l' ->
    ((exists l1, after_any l ss l1) <-> (exists l1', after_any l' ss l1'))
    /\ forall l1 l1', after_any l ss l1 -> after_any l' ss l1' -> same_but_positions l1 l1'.
Proof.
  intros tg tg' sz sz' input input' l l' ss HW HR HC HC'.
  destruct (alike_resized tg tg' sz sz' input input' l l' HW HR HC HC') as (lg & HA).
  assert (HA' : alike l' lg l lg) by (destruct HA as (A & B & C & D); split; [|split; [|split]]; auto).
  split; [split|].
  - intros (l1 & A1). destruct (after_alike ss l lg l' lg l1 HA A1) as (l1' & _ & _ & A1' & _). eauto.
  - intros (l1 & A1). destruct (after_alike ss l' lg l lg l1 HA' A1) as (l1' & _ & _ & A1' & _). eauto.
  - intros l1 l1' A1 A1'. destruct (after_alike ss l lg l' lg l1 HA A1) as (l2 & a & b & A2 & HK & _).
    rewrite (after_unique _ _ _ _ A1' A2). eapply alike_positions; eauto.
Qed.

(** ** C62 Attributes of the input *)

Lemma bucket_any b t v : (vec <- expect PDowncast (bucket_downcast t b);; Ok (mkbucket t (vec ++ [v]))) = bucket_insert_any b (mkany t v).
Proof.
  destruct b as [tb vec]. unfold bucket_insert_any, bucket_downcast, downcast. cbn [projT1 projT2 mkany].
  destruct (ty_eq_dec tb t) as [e|n].
  - subst tb. destruct (ty_eq_dec t t) as [e'|n']; [|now elim n'].
    rewrite (Eqdep_dec.UIP_dec ty_eq_dec e' eq_refl). reflexivity.
  - destruct (ty_eq_dec t tb) as [e|n']; [now elim n|]. reflexivity.
Qed.

Lemma map_entry_ext {K V} (eqk : K -> K -> bool) (k : K) (d : V) f g : (forall v, f v = g v) ->
  forall m, map_entry eqk m k d f = map_entry eqk m k d g.
Proof.
  intros E. induction m as [|[k' v] m IH]; cbn [map_entry]; rewrite ?E; auto. now rewrite IH.
Qed.

Lemma insert_any_insert a r t v : attrs_insert_any a r (any_attribute_new t v) = attrs_insert a r t v.
Proof.
  unfold attrs_insert_any, attrs_insert. cbn [aa_key any_attribute_new].
  erewrite map_entry_ext; [reflexivity|]. intros tb. unfold tb_insert_any_attribute, tb_insert.
  cbn [aa_key aa_empty aa_value any_attribute_new]. apply map_entry_ext. intros b. symmetry. apply bucket_any.
Qed.

Lemma after_assigning_app l es l' : after_assigning l es l' -> forall es' l'', after_assigning l' es' l'' -> after_assigning l (es ++ es') l''.
Proof. induction 1; intros es' l3 H3; [exact H3|]. econstructor; eauto. Qed.

Lemma add_any_assigning s e ats : Forall wf_attribute ats -> forall l l', ll_tokens l <> [] -> add_any_attrs l s e ats = Ok l' ->
  ll_tokens l' = ll_tokens l /\ after_assigning l (map (fun a => ((s, e), aa_value a)) ats) l'.
Proof.
  induction 1 as [|x ats (t & v & ->) HW IH]; intros l l' HN H; unfold add_any_attrs in H; cbn [foldM] in H.
  - inv_bind H. inversion H; subst. inversion E; subst. destruct l. split; [reflexivity|constructor].
  - inv_bind H. inv_bind E. rewrite insert_any_insert in E0.
    destruct (IH (mkLine (ll_tokens l) a0) l' HN) as (T & A).
    { unfold add_any_attrs. cbn [attrs ll_tokens]. now rewrite E. }
    split; [exact T|]. cbn [map aa_value any_attribute_new].
    refine (AW_step 0%N _ _ _ _ _ (mkLine (ll_tokens l) a0) _ _ A).
    unfold run, assigning. destruct (ll_tokens l) eqn:ET; [easy|]. cbn [bind go_retained go_assignments fst snd].
    unfold store_assignments. cbn [foldM as_start as_end as_value]. rewrite E0. cbn [bind]. now rewrite ET.
Qed.

Lemma spans_assigning : forall groups input i l l',
  Forall wf_input input -> (ll_tokens l <> [] \/ groups = []) ->
  foldM (fun l x => let '(s, e, ats) := x in add_any_attrs l s e ats) (spans i groups input) l = Ok l' ->
  after_assigning l (input_log i (map (map fst) groups) input) l'.
Proof.
  induction groups as [|g groups IH]; intros input i l l' HW HN H; cbn [spans map input_log foldM] in *.
  - inversion H; subst. constructor.
  - destruct input as [|it input]; cbn [spans foldM] in *; [inversion H; subst; constructor|].
    inversion HW; subst. inv_bind H. destruct HN as [HN|HN]; [|discriminate].
    destruct (add_any_assigning _ _ _ ltac:(eassumption) _ _ HN E) as (T & A).
    rewrite map_length. eapply after_assigning_app; [exact A|]. apply IH; auto. left. now rewrite T.
Qed.

Lemma bare_tokens sz it : input_ltokens sz (bare it) = input_ltokens sz it.
Proof. now destruct it. Qed.

Lemma spans_bare : forall groups input i l, length groups = length input ->
  foldM (fun l x => let '(s, e, ats) := x in add_any_attrs l s e ats) (spans i groups (map bare input)) l = Ok l.
Proof.
  induction groups as [|g groups IH]; intros input i l EL; [reflexivity|]. destruct input as [|it input]; [reflexivity|].
  cbn [map spans foldM]. replace (input_attrs (bare it)) with ([] : list AnyAttribute) by now destruct it.
  unfold add_any_attrs at 1. cbn [foldM bind]. replace (mkLine (ll_tokens l) (attrs l)) with l by now destruct l. apply IH. now inversion EL.
Qed.

(** C62: attributes given with the input are assigned to the token range of their input token. *)
Lemma attributes_assigned :
  forall tg sz input l,
    Forall wf_input input -> create_line_from_input_tokens tg input sz = Ok l ->
    exists groups l0,
      Forall2 (fun it g => input_ltokens sz it = Ok g) input groups
      /\ create_line_from_input_tokens tg (map bare input) sz = Ok l0
      /\ after_assigning l0 (input_log 0 (map (map fst) groups) input) l.
Proof.
  intros tg sz input l HW H. destruct (create_inv tg sz input l H) as (groups & HG & HN & HF).
  assert (HB : Forall2 (fun it g => input_ltokens sz it = Ok g) (map bare input) groups).
  { clear - HG. induction HG; [constructor|]. cbn [map]. constructor; auto. now rewrite bare_tokens. }
  unfold create_line_from_input_tokens in *.
  rewrite (create_fold_ok tg sz input groups (mkCS [] [] 0%N)) in H by assumption.
  cbn [bind cs_tokens cs_attrs cs_size app length] in H.
  destruct (line_new_ok (layout_by (wadd tg) 0 0%N (concat groups))) as (l0 & E & T & HR). rewrite E in H. cbn [bind] in H.
  exists groups, l0. split; [exact HG|]. split.
  - rewrite (create_fold_ok tg sz (map bare input) groups (mkCS [] [] 0%N)) by assumption.
    cbn [bind cs_tokens cs_attrs cs_size app length]. rewrite E. cbn [bind]. apply spans_bare. clear - HG. induction HG; cbn [length]; congruence.
  - eapply spans_assigning; eauto. destruct groups as [|g groups]; [now right|]. left.
    rewrite T. inversion HN; subst. destruct g as [|[t n] g]; [easy|]. discriminate.
Qed.

Lemma thm_C62_attributes :
  forall (SL : SegmenterLaws) tg sz input l,
    Forall wf_input input -> create_line_from_input_tokens tg input sz = Ok l ->
    exists groups l0,
      Forall2 cut_of input groups /\ concat groups = map token (ll_tokens l)
      /\ create_line_from_input_tokens tg (map bare input) sz = Ok l0
      /\ after_assigning l0 (input_log 0 groups input) l.
Proof.
  intros SL tg sz input l HW H. destruct (attributes_assigned tg sz input l HW H) as (groups & l0 & HG & E & HA).
  destruct (create_facts tg sz input l HW H) as (groups' & H1 & H2 & H3 & HT & HR).
  assert (groups' = groups) by (apply (groups_fun sz input); auto). subst groups'.
  exists (map (map fst) groups), l0. split; [|split; [now rewrite HT, layout_by_tokens, concat_map_map|auto]].
  apply Forall2_map_r. eapply Forall2_weaken; [|apply (groups_cut SL sz); eauto]. simpl. tauto.
Qed.

(** ** C63 Repeated runs *)

Definition row_at (l : LLLine) (t : ty) (lg : list entry) (r : LRange) : res (LRange * str * list (den t)) :=
  toks <- slice_incl (ll_tokens l) (fst r) (snd r);; Ok (r, concat (map token_str toks), values_on t r lg).

Lemma query_rows l lg t : Repr l lg -> query l t = mapM (row_at l t lg) (ranges_of t lg).
Proof. exact (query_run l lg t). Qed.

Lemma reported_values l t lg r : forall rs q, NoDup rs -> mapM (row_at l t lg) rs = Ok q ->
  reported q r = if existsb (fun r' => range_eqb r' r) rs then values_on t r lg else [].
Proof.
  induction rs as [|r0 rs IH]; intros q ND H; cbn [mapM] in H; [inversion H; subst; reflexivity|].
  inv_bind H. inv_bind H. inversion H; subst. inversion ND as [|? ? N0 ND']; subst.
  specialize (IH _ ND' E0). unfold row_at in E. inv_bind E. inversion E; subst.
  unfold reported in *. cbn [flat_map existsb]. rewrite IH. destruct (range_eqb r0 r) eqn:ER; [|reflexivity].
  apply range_eqb_spec in ER. subst r0. cbn [orb].
  destruct (existsb (fun r' => range_eqb r' r) rs) eqn:EX; [|now rewrite app_nil_r].
  apply existsb_exists in EX. destruct EX as (x & Hx & Ex). apply range_eqb_spec in Ex. now subst x.
Qed.

Lemma reported_query l lg t q r : Repr l lg -> query l t = Ok q -> reported q r = values_on t r lg.
Proof.
  intros HR H. rewrite (query_rows l lg t HR) in H. rewrite (reported_values l t lg r _ _ (ranges_of_NoDup t lg) H).
  destruct (existsb (fun r' => range_eqb r' r) (ranges_of t lg)) eqn:EX; [reflexivity|].
  destruct (values_on t r lg) eqn:EV; [reflexivity|exfalso].
  assert (HI : In r (ranges_of t lg)) by (apply ranges_of_values_on; congruence).
  rewrite <- not_true_iff_false in EX. apply EX, existsb_exists. exists r. split; [exact HI|]. apply range_eqb_refl.
Qed.

Lemma firsts_absorb l l' : (forall x, In x l' -> In x l) -> firsts (l ++ l') = firsts l.
Proof.
  induction l' as [|x l' IH] using rev_ind; intros HI; [now rewrite app_nil_r|].
  rewrite app_assoc, firsts_snoc, IH by (intros y Hy; apply HI, in_or_app; now left).
  apply push_distinct_in. apply firsts_In, HI, in_or_app. right. now left.
Qed.

(** C63: running a step a second time. *)
Lemma thm_C63_again :
  forall l lg s id l1 id',
    History l lg -> attributed_for [(id, s)] l lg -> ~ In (writes s) (reads s) -> run_any id l s = Ok l1 ->
    exists l2,
      run_any id' l1 s = Ok l2
      /\ ll_tokens l2 = ll_tokens l1
      /\ (forall t, t <> writes s -> query l2 t = query l1 t)
      /\ (forall q1, query l1 (writes s) = Ok q1 ->
           exists q0 added,
             query l (writes s) = Ok q0
             /\ Forall (fun '(r, _, vs) => vs = reported q0 r ++ added r) q1
             /\ query l2 (writes s) = Ok (map (fun '(r, text, vs) => (r, text, vs ++ added r)) q1)).
Proof.
  intros l lg s id l1 id' H HA HN HR. destruct (step_same s id l lg l1 H HR) as (out & (H1 & T1) & K).
  destruct (K id' l1 (lg ++ entries out) H1) as (l2 & R2 & H2 & T2).
  { apply contents_tokens. congruence. }
  { intros t Ht. symmetry. apply assigned_step. intros E. apply HN. congruence. }
  { intros HU. assert (HB : forall i, i < length (ll_tokens l) -> attributed i lg).
    { apply HA. exists (id, s). split; [now left|exact HU]. }
    apply (attributed_same l lg l1 _ H H1); auto.
    - apply contents_tokens. congruence.
    - intros i Hi. apply attributed_app, HB. congruence. }
  exists l2. split; [exact R2|]. split; [exact T2|].
  pose proof (history_repr _ _ H) as P0. pose proof (history_repr _ _ H1) as P1. pose proof (history_repr _ _ H2) as P2.
  split; [|].
  - intros t Ht. eapply query_ext; eauto. rewrite !assigned_step; auto.
  - intros q1 Q1. exists (match query l (writes s) with Ok q => q | _ => [] end), (fun r => values_on (writes s) r (entries out)).
    assert (RP : exists ex, ranges_of (writes s) (lg ++ entries out) = ranges_of (writes s) lg ++ ex).
    { unfold ranges_of. rewrite LemStore.assigned_app, map_app. apply firsts_prefix. }
    destruct RP as (ex & RP).
    assert (Q0 : exists q0, query l (writes s) = Ok q0).
    { rewrite (query_rows l lg _ P0). rewrite (query_rows l1 _ _ P1) in Q1. rewrite RP in Q1. clear - Q1 T1.
      revert q1 Q1. induction (ranges_of (writes s) lg) as [|r rs IH]; intros q1 Q1; [now exists []|].
      cbn [app mapM] in *. inv_bind Q1. inv_bind Q1. destruct (IH _ E0) as (q0 & E1). rewrite E1. clear E1 E0.
      unfold row_at in E |- *. rewrite T1 in E. inv_bind E. rewrite E0. eexists; reflexivity. }
    destruct Q0 as (q0 & Q0). rewrite Q0. split; [reflexivity|].
    assert (Q2 : query l2 (writes s) = Ok (map (fun '(r, text, vs) => (r, text, vs ++ values_on (writes s) r (entries out))) q1)).
    { rewrite (query_rows l2 _ _ P2). rewrite (query_rows l1 _ _ P1) in Q1.
      replace (ranges_of (writes s) ((lg ++ entries out) ++ entries out)) with (ranges_of (writes s) (lg ++ entries out)).
      2:{ unfold ranges_of. rewrite (LemStore.assigned_app _ (lg ++ entries out)), map_app. symmetry. apply firsts_absorb.
          intros x. rewrite LemStore.assigned_app, map_app. intros Hx. apply in_or_app. now right. }
      clear - Q1 T2. revert q1 Q1. generalize (ranges_of (writes s) (lg ++ entries out)) as rs.
      induction rs as [|r rs IH]; intros q1 Q1; cbn [mapM] in *; [inversion Q1; subst; reflexivity|].
      inv_bind Q1. inv_bind Q1. inversion Q1; subst. rewrite (IH _ E0). clear E0. unfold row_at in E |- *.
      rewrite T2. inv_bind E. inversion E; subst. rewrite E0. cbn [bind map]. rewrite (values_on_app _ _ (lg ++ entries out)). reflexivity. }
    split; [|exact Q2].
    apply Forall_forall. intros [[r text] vs] HI. rewrite (reported_query l lg _ q0 r P0 Q0).
    rewrite (query_rows l1 _ _ P1) in Q1. apply mapM_Forall2 in Q1. clear - Q1 HI.
    induction Q1 as [|r0 row rs q E Q1 IH]; [destruct HI|]. destruct HI as [->|HI]; [|auto].
    unfold row_at in E. inv_bind E. inversion E; subst. apply values_on_app.
Qed.

(** C63 on created lines: the second run of a step reports everything twice. *)
Lemma thm_C63_created :
  forall tg sz input l s id l1 id',
    Forall wf_input input -> create_line_from_input_tokens tg input sz = Ok l ->
    (Forall is_text input \/ uses_chars s = false) -> query l (writes s) = Ok [] ->
    ~ In (writes s) (reads s) -> run_any id l s = Ok l1 ->
    exists l2,
      run_any id' l1 s = Ok l2
      /\ (forall t, t <> writes s -> query l2 t = query l1 t)
      /\ (forall q1, query l1 (writes s) = Ok q1 ->
           query l2 (writes s) = Ok (map (fun '(r, text, vs) => (r, text, vs ++ vs)) q1)).
Proof.
  intros tg sz input l s id l1 id' HW HC HI HQ HN HR.
  destruct (thm_C07_created_plain tg sz input l HW HC) as (lg & H & _).
  assert (HF : attributed_for [(id, s)] l lg).
  { intros (x & [<-|[]] & Ex). cbn [snd] in Ex. destruct HI as [HI|HI]; [|congruence].
    intros i. apply text_attributed; auto. eapply created_text_only; eauto. }
  destruct (thm_C63_again l lg s id l1 id' H HF HN HR) as (l2 & R2 & _ & O2 & Q2). exists l2. split; [exact R2|]. split; [exact O2|].
  intros q1 Q1. destruct (Q2 q1 Q1) as (q0 & added & Q0 & F & ->). f_equal. apply map_ext_in. intros [[r text] vs] Hx.
  rewrite Forall_forall in F. specialize (F _ Hx). cbv beta iota in F. rewrite HQ in Q0. inversion Q0; subst q0. cbn [reported flat_map app] in F. congruence.
Qed.

End ThmLaws.
