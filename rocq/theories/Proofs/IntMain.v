(** C17 and C18. *)
From Coq Require Import List Arith ZArith Bool Lia Permutation Sorted.
From Verif Require Import Model.Base Model.Counting Model.Point Model.SparseGrid Model.Graph Model.IntCounting
  Spec.GridSpec Proofs.ListLemmas Proofs.CountLemmas Proofs.PointLemmas Proofs.GridMain
  Proofs.ItemsLemmas Proofs.GraphLemmas Proofs.DependenceLemmas.
Import ListNotations.

Lemma bind_ext {A C} (m : outcome A) (f g : A -> outcome C) : (forall a, f a = g a) -> bind m f = bind m g.
Proof. intros H. destruct m; simpl; auto. Qed.
Lemma chk_ok z : (INT_MIN <= z <= INT_MAX)%Z -> chk z = Ok z.
Proof.
  intros H. unfold chk. destruct (Z.leb_spec INT_MIN z), (Z.leb_spec z INT_MAX); try lia. reflexivity.
Qed.
Lemma chk_nat n : (Z.of_nat n <= INT_MAX)%Z -> chk (Z.of_nat n) = Ok (Z.of_nat n).
Proof. intros H. apply chk_ok. unfold INT_MIN. lia. Qed.

Lemma B_sym a b : B a b = B b a.
Proof. unfold B. rewrite binom_sym. now rewrite Nat.add_comm. Qed.
Lemma B_mono_l a a' b : a <= a' -> B a b <= B a' b.
Proof. intros H. rewrite !(B_sym _ b). now apply B_mono. Qed.
Lemma B_step_mul a j : B a (S j) * (j + 1) = B a j * (a + j + 1).
Proof.
  unfold B. pose proof (binom_step (a + j) a ltac:(lia)) as H.
  replace (a + S j) with (S (a + j)) by lia. replace (a + j + 1 - a) with (j + 1) in H by lia. lia.
Qed.

Lemma choose_int_B a b : (Z.of_nat (B a b * b) <= INT_MAX)%Z -> (Z.of_nat (a + b + 1) <= INT_MAX)%Z ->
  choose_int (a + b) a = Ok (Z.of_nat (B a b)).
Proof.
  intros H1 H2. unfold choose_int. replace (a + b - a) with b by lia.
  destruct (foldM_seq_inv (choose_step a) (fun i c => c = Z.of_nat (B a (i - (a + 1)))) b (a + 1) 1%Z)
    as (c & E & Hc).
  - now rewrite Nat.sub_diag, B_0_r.
  - intros i c Hi ->. set (j := i - (a + 1)) in *. replace i with (a + j + 1) by lia. eexists.
    split; [|reflexivity]. replace (S (a + j + 1) - (a + 1)) with (S j) by lia.
    pose proof (B_step_mul a j) as Hs. pose proof (B_mono a (S j) b ltac:(lia)) as Hm.
    unfold choose_step. rewrite <- Nat2Z.inj_mul, <- Hs, chk_nat.
    2:{ etransitivity; [|exact H1]. apply Nat2Z.inj_le. apply Nat.mul_le_mono; lia. }
    cbn [bind]. replace (Z.of_nat (a + j + 1) - Z.of_nat a)%Z with (Z.of_nat (j + 1)) by lia.
    rewrite chk_nat by lia. cbn [bind]. f_equal. rewrite Nat2Z.inj_mul. apply Z.quot_mul. lia.
  - rewrite E. cbn [bind]. replace (Nat.max (a + b) a + 1) with (a + b + 1) by lia.
    rewrite chk_nat by auto. cbn [bind]. rewrite Hc. do 3 f_equal. lia.
Qed.

Section Fits.
Variables d k : nat.
Hypothesis Hd : 0 < d.
Hypothesis HN : (Z.of_nat (findNumGridPoints d k) <= INT_MAX)%Z.
Hypothesis HC : (Z.of_nat (B (d - 1) k * (d - 1)) <= INT_MAX)%Z.
Hypothesis HD : (Z.of_nat (d + k) <= INT_MAX)%Z.
Notation N := (findNumGridPoints d k).

Lemma term_le s : s <= k -> N3 d s + B (d - 1) s * 2 ^ s <= N.
Proof. intros H. rewrite numGrid_N3 by auto. pose proof (N3_mono d (S s) (k + 1) ltac:(lia)). cbn [N3] in *. lia. Qed.
Lemma B_le t s : t <= d - 1 -> s <= k -> B t s * 2 ^ s <= N.
Proof.
  intros Ht Hs. pose proof (term_le s Hs). pose proof (B_mono_l t (d - 1) s Ht).
  etransitivity; [apply Nat.mul_le_mono_r; eassumption|]. lia.
Qed.
Lemma lt_pow2 s : s < 2 ^ s.
Proof. apply Nat.pow_gt_lin_r. lia. Qed.
Lemma B_le_s t s : t <= d - 1 -> s <= k -> B t s * s <= N.
Proof. intros Ht Hs. pose proof (B_le t s Ht Hs). pose proof (lt_pow2 s). nia. Qed.
Lemma B_le_1 t s : t <= d - 1 -> s <= k -> B t s <= N.
Proof. intros Ht Hs. pose proof (B_le t s Ht Hs). pose proof (pow2_pos s). nia. Qed.
Lemma pow_le s : s <= k -> 2 ^ s <= N.
Proof. intros Hs. pose proof (B_le 0 s ltac:(lia) Hs). rewrite B_0_l in H. lia. Qed.
Lemma shl_pow s : s <= k -> shl 1 (Z.of_nat s) = Ok (Z.of_nat (2 ^ s)).
Proof.
  intros Hs. pose proof (pow_le s Hs) as H. unfold shl.
  assert (s < 31).
  { destruct (le_lt_dec 31 s) as [Hg|]; auto. exfalso.
    assert (2 ^ Z.of_nat 31 <= 2 ^ Z.of_nat s)%Z by (apply Z.pow_le_mono_r; lia).
    rewrite <- !pow2_Z in H0. rewrite pow2_Z in H0. change (2 ^ Z.of_nat 31)%Z with 2147483648%Z in H0.
    unfold INT_MAX in *. lia. }
  destruct (Z.leb_spec 0 1), (Z.leb_spec 0 (Z.of_nat s)), (Z.ltb_spec (Z.of_nat s) 32); try lia. cbn [andb].
  rewrite Z.mul_1_l, <- pow2_Z. apply chk_nat. lia.
Qed.

Lemma choose_ts t s : t <= d - 1 -> s <= k -> choose_int (t + s) t = Ok (Z.of_nat (B t s)).
Proof.
  intros Ht Hs. apply choose_int_B; [|lia]. pose proof (B_le_s t s Ht Hs). lia.
Qed.

Lemma numGrid_ok : findNumGridPoints_int d k = Ok (Z.of_nat N).
Proof.
  unfold findNumGridPoints_int. destruct (Nat.ltb_spec 0 d); [|lia].
  rewrite chk_nat by lia. cbn [bind]. rewrite Nat2Z.id.
  destruct (foldM_seq_inv (numGrid_step d) (fun i c => c = Z.of_nat (N3 d i)) (k + 1) 0 0%Z) as (c & E & Hc).
  - reflexivity.
  - intros i c Hi ->. eexists. split; [|reflexivity]. unfold numGrid_step. rewrite chk_nat by lia. cbn [bind].
    rewrite Nat2Z.id. replace (d - 1 + i) with (i + (d - 1)) by lia.
    rewrite choose_int_B.
    + rewrite (B_sym i). cbn [bind]. rewrite shl_pow by lia. cbn [bind].
      pose proof (term_le i ltac:(lia)). rewrite <- Nat2Z.inj_mul, chk_nat by lia. cbn [bind].
      rewrite <- Nat2Z.inj_add, chk_nat by lia. cbn [N3]. reflexivity.
    + rewrite B_sym. etransitivity; [|exact HC]. apply Nat2Z.inj_le, Nat.mul_le_mono_r, B_mono. lia.
    + lia.
  - rewrite E, Hc, numGrid_N3 by auto. reflexivity.
Qed.

Lemma index1_int_fold p : forall ls ps pre pre' i m, p_levels p = pre ++ ls -> p_positions p = pre' ++ ps ->
  length pre = length pre' -> fits ls ps -> (forall l, In l ls -> l <= k) ->
  (0 <= i < m)%Z -> (m * Z.of_nat (2 ^ list_sum ls) <= INT_MAX)%Z ->
  exists m', foldM (index1_int p) (seq (length pre) (length ls)) (i, m) = Ok (i + m * Z.of_nat (mix ls ps), m')%Z.
Proof.
  induction ls as [|l ls IH]; intros ps pre pre' i m Hl Hp Hpre Hf Hk Hi Hm; inversion Hf as [|? q ? ps' Hq Hf']; subst.
  - simpl. exists m. f_equal. f_equal. lia.
  - cbn [length seq foldM]. unfold index1_int at 1.
    rewrite (vec_at_Ok (p_positions p) (length pre) q), (vec_at_Ok (p_levels p) (length pre) l).
    2:{ rewrite Hl, nth_error_app2, Nat.sub_diag; auto. }
    2:{ rewrite Hp, Hpre, nth_error_app2, Nat.sub_diag; auto. }
    simpl list_sum in Hm. rewrite Nat.pow_add_r, Nat2Z.inj_mul in Hm. pose proof (pow2_pos (list_sum ls)).
    assert (Hml : (m * Z.of_nat (2 ^ l) <= INT_MAX)%Z) by nia.
    assert (Hqm : (Z.of_nat q * m + m <= m * Z.of_nat (2 ^ l))%Z) by nia.
    cbn [bind fst snd]. rewrite chk_ok by (unfold INT_MIN; nia). cbn [bind]. rewrite chk_ok by (unfold INT_MIN; nia).
    cbn [bind]. rewrite shl_pow by (apply Hk; now left). cbn [bind]. rewrite chk_ok by (unfold INT_MIN; nia). cbn [bind].
    destruct (IH ps' (pre ++ [l]) (pre' ++ [q]) (i + Z.of_nat q * m)%Z (m * Z.of_nat (2 ^ l))%Z) as (m' & E); auto.
    { now rewrite Hl, <- app_assoc. } { now rewrite Hp, <- app_assoc. }
    { rewrite !app_length. simpl. lia. } { intros; apply Hk; now right. } { nia. } { nia. }
    rewrite app_length, Nat.add_1_r in E. exists m'. rewrite E. f_equal. f_equal.
    cbn [mix]. rewrite Nat2Z.inj_add, Nat2Z.inj_mul. ring.
Qed.

Lemma index2_int_fold p : forall ls pre, p_levels p = pre ++ ls -> pre <> [] -> length (pre ++ ls) = d ->
  list_sum (pre ++ ls) <= k ->
  foldM (index2_int p) (seq (length pre) (length ls)) (list_sum pre, I2 0 0 pre) =
  Ok (list_sum (pre ++ ls), I2 0 0 (pre ++ ls)).
Proof.
  induction ls as [|l ls IH]; intros pre Hl Hn Hd' Hs.
  - simpl. now rewrite app_nil_r.
  - cbn [length seq foldM]. unfold index2_int at 1.
    rewrite (vec_at_Ok (p_levels p) (length pre) l) by (rewrite Hl, nth_error_app2, Nat.sub_diag; auto).
    cbn [bind fst snd]. rewrite list_sum_app in Hs. rewrite app_length in Hd'. simpl in Hs, Hd'.
    fold (list_sum ls) in Hs.
    set (t := length pre) in *. set (s := list_sum pre) in *.
    pose proof (I2_lt pre Hn) as H1. pose proof (I2_nonneg 0 0 pre) as H2. fold t s in H1.
    pose proof (B_le_1 (t - 1) s ltac:(lia) ltac:(lia)) as H3.
    pose proof (B_le_1 t s ltac:(lia) ltac:(lia)) as H4.
    assert (Hn2 : pre ++ [l] <> []) by (destruct pre; discriminate).
    pose proof (I2_lt (pre ++ [l]) Hn2) as H5. pose proof (I2_nonneg 0 0 (pre ++ [l])) as H6.
    rewrite list_sum_snoc, app_length in H5. simpl (length [l]) in H5. fold t s in H5.
    pose proof (B_le_1 (t + 1 - 1) (s + l) ltac:(lia) ltac:(lia)) as H7.
    assert (H8 : I2 0 0 (pre ++ [l]) = (I2 0 0 pre - Z.of_nat (B t s) + Z.of_nat (B t (s + l)))%Z).
    { rewrite I2_snoc. fold t s. lia. }
    rewrite chk_nat by lia. cbn [bind]. rewrite Nat2Z.id. rewrite choose_ts by lia. cbn [bind].
    rewrite chk_ok by (unfold INT_MIN, INT_MAX in *; lia). cbn [bind]. rewrite chk_nat by lia. cbn [bind].
    rewrite Nat2Z.id, chk_nat by lia. cbn [bind]. rewrite Nat2Z.id, choose_ts by lia. cbn [bind].
    rewrite <- H8. rewrite chk_ok by (unfold INT_MIN, INT_MAX in *; lia). cbn [bind].
    pose proof (IH (pre ++ [l])) as E. rewrite (app_length pre [l]), list_sum_snoc in E.
    simpl (length [l]) in E. rewrite Nat.add_1_r in E. rewrite <- app_assoc in E. simpl app in E. apply E; auto.
    + rewrite app_length. simpl. fold t. lia.
    + rewrite list_sum_app. simpl. fold (list_sum ls). fold s. lia.
Qed.

Lemma index3_int_fold s : s <= k + 1 -> foldM (index3_int d) (seq 0 s) 0%Z = Ok (Z.of_nat (N3 d s)).
Proof.
  intros Hs. destruct (foldM_seq_inv (index3_int d) (fun i c => c = Z.of_nat (N3 d i)) s 0 0%Z) as (c & E & Hc).
  - reflexivity.
  - intros i c Hi ->. eexists. split; [|reflexivity]. unfold index3_int. rewrite chk_nat by lia. cbn [bind].
    rewrite Nat2Z.id, choose_ts by lia. cbn [bind]. rewrite shl_pow by lia. cbn [bind].
    pose proof (term_le i ltac:(lia)). rewrite <- Nat2Z.inj_mul, chk_nat by lia. cbn [bind].
    rewrite <- Nat2Z.inj_add, chk_nat by lia. cbn [N3]. reflexivity.
  - rewrite E, Hc. reflexivity.
Qed.

Lemma computeIndex_int_idx p : grid_point d k (p_levels p) (p_positions p) ->
  computeIndex_int p = Ok (idx (p_levels p) (p_positions p)).
Proof.
  intros (L & L' & S & F). unfold computeIndex_int.
  pose proof (mix_lt _ _ F) as Hmix.
  destruct (index1_int_fold p (p_levels p) (p_positions p) [] [] 0 1 eq_refl eq_refl eq_refl F) as (m' & E).
  { intros l Hl. apply In_nth_error in Hl. destruct Hl as (u & Hu). pose proof (list_sum_nth _ _ _ Hu). lia. }
  { lia. } { pose proof (pow_le _ S). lia. }
  simpl (length []) in E. rewrite E. cbn [bind fst snd].
  pose proof (idx_bounds (p_levels p) (p_positions p) (ne_of_len _ _ Hd L) F) as HB.
  pose proof (I2_nonneg 0 0 (p_levels p)) as Hnn. pose proof (I2_lt (p_levels p) (ne_of_len _ _ Hd L)) as Hlt.
  rewrite L in HB, Hlt. pose proof (term_le _ S) as HT. rewrite Nat.add_1_r in HB. cbn [N3] in HB.
  assert (Hi3 : (0 <= I2 0 0 (p_levels p) * 2 ^ Z.of_nat (list_sum (p_levels p)) <= Z.of_nat N)%Z).
  { rewrite <- pow2_Z. pose proof (pow2_pos (list_sum (p_levels p))). split; [nia|].
    transitivity (Z.of_nat (B (d - 1) (list_sum (p_levels p)) * 2 ^ list_sum (p_levels p))).
    - rewrite Nat2Z.inj_mul. nia. - lia. }
  unfold idx in *. rewrite L in *.
  destruct (p_levels p) as [|l0 ls] eqn:EL; [simpl in L; lia|].
  cbn [vec_at nth_error bind]. assert (HL : d - 1 = length ls) by (simpl in L; lia). rewrite HL in HB, Hlt, HT. rewrite HL.
  pose proof (index2_int_fold p ls [l0] EL ltac:(discriminate) L S) as E2.
  simpl (length [l0]) in E2. simpl (list_sum [l0]) in E2. rewrite Nat.add_0_r in E2.
  replace (I2 0 0 [l0]) with 0%Z in E2 by (simpl; rewrite !B_0_l; lia).
  rewrite E2. cbn [bind fst snd]. simpl app. unfold shl.
  assert (Hs31 : (Z.of_nat (list_sum (l0 :: ls)) < 32)%Z).
  { pose proof (shl_pow _ S) as Q. unfold shl in Q. destruct (Z.ltb_spec (Z.of_nat (list_sum (l0 :: ls))) 32); auto.
    rewrite andb_false_r in Q. discriminate. }
  destruct (Z.leb_spec 0 (I2 0 0 (l0 :: ls))), (Z.leb_spec 0 (Z.of_nat (list_sum (l0 :: ls)))),
    (Z.ltb_spec (Z.of_nat (list_sum (l0 :: ls))) 32); try lia. cbn [andb].
  rewrite chk_ok by (unfold INT_MIN; lia). cbn [bind].
  rewrite index3_int_fold by lia. cbn [bind].
  assert (A : (0 + 1 * Z.of_nat (mix (l0 :: ls) (p_positions p)) = Z.of_nat (mix (l0 :: ls) (p_positions p)))%Z) by lia.
  rewrite A. clear A.
  assert (HB2 : (Z.of_nat (N3 d (list_sum (l0 :: ls)) + B (length ls) (list_sum (l0 :: ls)) * 2 ^ list_sum (l0 :: ls)) <= INT_MAX)%Z) by lia.
  rewrite chk_ok by (unfold INT_MIN; lia). cbn [bind].
  rewrite chk_ok by (unfold INT_MIN; lia). reflexivity.
Qed.

Lemma setIndex_int_ok i ls ps s : grid_point d k ls ps ->
  setIndex_int (mkPoint i ls ps s) = setIndex (mkPoint i ls ps s).
Proof.
  intros G. unfold setIndex_int. rewrite computeIndex_int_idx by exact G. cbn [bind p_levels p_positions p_levelSum].
  destruct G as (L & L' & _). rewrite setIndex_spec; auto; [|congruence]. eapply ne_of_len; eauto.
Qed.

Lemma setLevelSum_int_ok i ls ps s : list_sum ls <= k + 1 ->
  setLevelSum_int (mkPoint i ls ps s) = Ok (setLevelSum (mkPoint i ls ps s)).
Proof.
  intros H. unfold setLevelSum_int, setLevelSum. cbn [p_levels p_index p_positions p_levelSum].
  assert (E : forall a, a + list_sum ls <= k + 1 ->
     foldM (fun acc l => chk (acc + Z.of_nat l)) ls (Z.of_nat a) = Ok (Z.of_nat (fold_left Nat.add ls a))).
  { clear H. induction ls as [|l ls IH]; intros a Ha; [reflexivity|]. simpl in Ha. fold (list_sum ls) in Ha.
    cbn [foldM fold_left]. rewrite <- Nat2Z.inj_add, chk_nat by lia. cbn [bind]. apply IH. lia. }
  change 0%Z with (Z.of_nat 0). rewrite E by lia. cbn [bind]. now rewrite Nat2Z.id.
Qed.

Lemma advPosDir_int_ok ls ps t : (forall l, nth_error ls t = Some l -> l <= k) ->
  advancePositionInDirection_int ls ps t = advancePositionInDirection ls ps t.
Proof.
  intros H. unfold advancePositionInDirection_int, advancePositionInDirection, vec_at.
  destruct (nth_error ps t) as [q|] eqn:E1; auto. cbn [bind].
  destruct (nth_error ls t) as [l|] eqn:E2; auto. cbn [bind].
  specialize (H l eq_refl). rewrite shl_pow by auto. cbn [bind].
  pose proof (pow_le l H). pose proof (pow2_pos l).
  rewrite chk_ok by (unfold INT_MIN; lia). cbn [bind].
  destruct (Z.ltb_spec (Z.of_nat q) (Z.of_nat (2 ^ l) - 1)), (Nat.ltb_spec q (2 ^ l - 1)); try lia; auto.
  rewrite chk_ok by (unfold INT_MIN; lia). cbn [bind]. do 3 f_equal. lia.
Qed.

Lemma advPosLoop_int_ok ls : (forall l, In l ls -> l <= k) -> forall n ps t, t + n <= d ->
  advancePositions_loop_int ls ps t n = advancePositions_loop ls ps t n.
Proof.
  intros H. induction n; intros ps t Ht; [reflexivity|]. cbn [advancePositions_loop_int advancePositions_loop].
  rewrite advPosDir_int_ok by (intros l E; apply H; eapply nth_error_In; eauto).
  apply bind_ext. intros r. rewrite chk_nat by lia. cbn [bind]. rewrite Nat2Z.id, IHn by lia. reflexivity.
Qed.

Lemma fnz_lt ls : forall t, first_nonzero ls = Ok t -> t < length ls.
Proof.
  induction ls as [|[|a] ls IH]; intros t H; simpl in *; try discriminate.
  - destruct (first_nonzero ls) as [u| | |]; simpl in *; try discriminate. injection H as <-.
    specialize (IH u eq_refl). lia.
  - injection H as <-. lia.
Qed.

Lemma advance_int_ok i p : i < N -> advances i (point_new d) = Ok p -> advance_int p = advance p.
Proof.
  intros Hi E. destruct (advances_spec d i Hd) as (p' & E' & (L & F & S & I) & In).
  rewrite E in E'. injection E' as <-.
  assert (G : list_sum (p_levels p) <= k) by (apply (idx_le_k d k _ _ Hd L F); lia).
  assert (Hlev : forall l, List.In l (p_levels p) -> l <= k).
  { intros l Hl. apply In_nth_error in Hl. destruct Hl as (u & Hu). pose proof (list_sum_nth _ _ _ Hu). lia. }
  unfold advance_int, advance. rewrite chk_ok by (unfold INT_MIN; lia). cbn [bind].
  unfold advancePositions_int, advancePositions.
  rewrite advPosLoop_int_ok; auto; [|rewrite (fits_len _ _ F); lia].
  apply bind_ext. intros r. destruct (fst r); auto.
  replace (advanceLevels_int (p_levels p) (p_levelSum p)) with (advanceLevels (p_levels p) (p_levelSum p)).
  - apply bind_ext. intros [l|]; auto. rewrite chk_nat by lia. cbn [bind]. now rewrite Nat2Z.id.
  - unfold advanceLevels, advanceLevels_int. apply bind_ext. intros back. destruct (back <? p_levelSum p); auto.
    destruct (first_nonzero (p_levels p)) as [t| | |] eqn:Et; auto. cbn [bind].
    apply fnz_lt in Et. rewrite chk_nat by lia. cbn [bind]. rewrite Nat2Z.id.
    apply bind_ext. intros old. unfold vec_get. destruct (nth_error (p_levels p) (t + 1)) as [next|] eqn:En; auto.
    cbn [bind]. apply nth_error_In in En. apply Hlev in En. rewrite chk_nat by lia. cbn [bind]. now rewrite Nat2Z.id.
Qed.

Lemma gp_upd' ls ps t lev s : grid_point d k ls ps -> nth_error ls t = Some lev -> fst s <= lev -> snd s < 2 ^ fst s ->
  grid_point d k (upd ls t (fst s)) (upd ps t (snd s)).
Proof.
  intros (L & L' & S & F) E H1 H2. split; [now rewrite upd_length|]. split; [now rewrite upd_length|].
  split; [pose proof (list_sum_upd ls t (fst s) lev E); lia|]. now apply fits_upd.
Qed.

Lemma firstParent_int_ok i ls ps s t : grid_point d k ls ps -> t < d ->
  firstParent_int (mkPoint i ls ps s) t = firstParent (mkPoint i ls ps s) t.
Proof.
  intros G Ht. unfold firstParent_int, firstParent. cbn [p_levels p_positions p_index p_levelSum].
  destruct (nth_error ls t) as [lev|] eqn:E; [|apply nth_error_None in E; destruct G; lia].
  apply bind_ext. intros a. apply bind_ext. intros b.
  assert (G' : grid_point d k (upd ls t 0) (upd ps t 0)).
  { apply (gp_upd' ls ps t lev (0, 0)); simpl; auto; lia. }
  rewrite setLevelSum_int_ok by (destruct G' as (_ & _ & Q & _); lia). cbn [bind].
  unfold setLevelSum. cbn [p_levels p_positions p_index p_levelSum]. now apply setIndex_int_ok.
Qed.

Lemma advDir_int_ok ls ps t lev l j : grid_point d k ls ps -> nth_error ls t = Some lev -> l < lev -> j < 2 ^ l ->
  advanceInDirection_int (repl ls ps t (l, j)) t = advanceInDirection (repl ls ps t (l, j)) t.
Proof.
  intros G E Hl Hj. assert (Ht : t < length ls) by (apply nth_error_Some; congruence).
  assert (Hll : length ps = length ls) by (destruct G as (? & ? & _); congruence).
  pose proof (list_sum_nth _ _ _ E) as Hlev. destruct G as (L & L' & S & F) eqn:EG. clear EG.
  unfold advanceInDirection_int, advanceInDirection, repl.
  cbn [p_levels p_positions p_index p_levelSum fst snd].
  rewrite advPosDir_int_ok.
  2:{ intros l0 E0. rewrite nth_error_upd_eq in E0 by auto. injection E0 as <-. lia. }
  unfold advancePositionInDirection.
  rewrite (vec_at_Ok (upd ps t j) t j) by (apply nth_error_upd_eq; lia).
  rewrite (vec_at_Ok (upd ls t l) t l) by (apply nth_error_upd_eq; lia).
  cbn [bind]. destruct (Nat.ltb_spec j (2 ^ l - 1)); cbn [bind fst snd].
  - rewrite upd_upd. apply setIndex_int_ok. apply (gp_upd' ls ps t lev (l, j + 1)); simpl; auto; try lia.
  - rewrite chk_nat by lia. cbn [bind]. rewrite Nat2Z.id, !upd_upd.
    assert (G' : grid_point d k (upd ls t (l + 1)) (upd ps t 0)).
    { apply (gp_upd' ls ps t lev (l + 1, 0)); simpl; auto; try lia; apply pow2_pos. }
    rewrite setLevelSum_int_ok by (destruct G' as (_ & _ & Q & _); lia). cbn [bind].
    unfold setLevelSum. cbn [p_levels p_positions p_index p_levelSum]. now apply setIndex_int_ok.
Qed.

Lemma parents_int_ok i ls ps s t : grid_point d k ls ps -> t < d ->
  parents_int (mkPoint i ls ps s) t = parents (mkPoint i ls ps s) t.
Proof.
  intros G Ht. assert (Hll : length ps = length ls) by (destruct G as (? & ? & _); congruence).
  assert (Ht' : t < length ls) by (destruct G; lia).
  destruct (nth_error ls t) as [lev|] eqn:E; [|apply nth_error_None in E; lia].
  unfold parents_int, parents. rewrite firstParent_int_ok by auto. rewrite firstParent_spec by auto. cbn [bind].
  unfold getLevel at 1 2. cbn [p_levels]. rewrite (vec_at_Ok _ _ _ E). cbn [bind].
  assert (H : forall fuel l j, l <= lev -> j < 2 ^ l ->
    parents_loop_int fuel lev t (repl ls ps t (l, j)) = parents_loop fuel lev t (repl ls ps t (l, j))).
  { induction fuel; intros l j Hl Hj; cbn [parents_loop_int parents_loop]; rewrite getLevel_repl by auto; cbn [bind];
      destruct (Nat.ltb_spec l lev); auto.
    rewrite (advDir_int_ok ls ps t lev) by auto. rewrite advDir_spec by auto. cbn [bind].
    destruct (Nat.ltb_spec j (2 ^ l - 1)); rewrite IHfuel; auto; try lia. apply pow2_pos. }
  apply H; simpl; lia.
Qed.
End Fits.

(** ** The guard *)
Lemma B_pow a : forall b, B a b <= (a + 1) ^ b.
Proof.
  induction a; intros b.
  - rewrite B_0_l, Nat.add_0_l, Nat.pow_1_l. auto.
  - induction b; [rewrite B_0_r; auto|]. rewrite B_S. specialize (IHa (S b)).
    assert (H : (a + 1) ^ b <= (S a + 1) ^ b) by (apply Nat.pow_le_mono_l; lia).
    cbn [Nat.pow] in *. nia.
Qed.
Lemma N3_pow d k : 0 < d -> N3 d (S k) <= (2 * d + 1) ^ k.
Proof.
  intros Hd. induction k.
  - cbn [N3]. rewrite B_0_r. simpl. lia.
  - change (N3 d (S (S k))) with (N3 d (S k) + B (d - 1) (S k) * 2 ^ S k).
    pose proof (B_pow (d - 1) (S k)) as H. replace (d - 1 + 1) with d in H by lia.
    assert (H2 : B (d - 1) (S k) * 2 ^ S k <= (2 * d) ^ S k).
    { rewrite Nat.pow_mul_l, Nat.mul_comm. now apply Nat.mul_le_mono_l. }
    assert (H3 : (2 * d) ^ k <= (2 * d + 1) ^ k) by (apply Nat.pow_le_mono_l; lia).
    cbn [Nat.pow] in *. nia.
Qed.

Lemma guard_bounds w k d : admitted_by_guard w k -> d < w -> (Z.of_nat w <= INT_MAX)%Z -> 0 < d ->
  (Z.of_nat (findNumGridPoints d k) <= INT_MAX)%Z /\ (Z.of_nat (B (d - 1) k * (d - 1)) <= INT_MAX)%Z /\
  (Z.of_nat (d + k) <= INT_MAX)%Z.
Proof.
  unfold admitted_by_guard, complexity_limit. intros Hg Hd Hw H0.
  assert (Hp : (Z.of_nat ((w * w) ^ k) <= 500000)%Z).
  { replace (2 * Z.of_nat k)%Z with (Z.of_nat (2 * k)) in Hg by lia. rewrite <- Nat2Z.inj_pow in Hg.
    rewrite Nat.pow_mul_r in Hg. rewrite Nat.pow_2_r in Hg. exact Hg. }
  assert (H1 : (2 * d + 1) ^ k <= (w * w) ^ k) by (apply Nat.pow_le_mono_l; nia).
  pose proof (N3_pow d k H0) as H2. rewrite numGrid_N3, Nat.add_1_r by auto.
  pose proof (B_pow (d - 1) k) as H3. replace (d - 1 + 1) with d in H3 by lia.
  assert (H4 : k < 2 ^ k) by (apply Nat.pow_gt_lin_r; lia).
  assert (H5 : 2 ^ k <= (w * w) ^ k) by (apply Nat.pow_le_mono_l; nia).
  split; [unfold INT_MAX; lia|].
  destruct k as [|k].
  - rewrite B_0_r. split; [lia|lia].
  - assert (H6 : d ^ S k * (d - 1) <= (w * w) ^ S k).
    { rewrite Nat.pow_mul_l. apply Nat.mul_le_mono; [apply Nat.pow_le_mono_l; lia|].
      assert (1 <= w ^ k) by (apply Nat.neq_0_lt_0, Nat.pow_nonzero; lia). cbn [Nat.pow]. nia. }
    assert (H7 : d <= (w * w) ^ S k).
    { assert (1 <= (w * w) ^ k) by (apply Nat.neq_0_lt_0, Nat.pow_nonzero; nia). cbn [Nat.pow]. nia. }
    split; [|unfold INT_MAX; lia].
    assert (B (d - 1) (S k) * (d - 1) <= d ^ S k * (d - 1)) by now apply Nat.mul_le_mono_r. unfold INT_MAX. lia.
Qed.

Lemma C17_main : forall width nSL d, admitted_by_guard width nSL -> d < width -> (Z.of_nat width <= INT_MAX)%Z ->
  findNumGridPoints_int d nSL = Ok (Z.of_nat (findNumGridPoints d nSL)) /\
  forall i p, i < findNumGridPoints d nSL -> 0 < d -> advances i (point_new d) = Ok p ->
    computeIndex_int p = computeIndex p /\ advance_int p = advance p /\
    forall t, t < d -> parents_int p t = parents p t.
Proof.
  intros w k d Hg Hd Hw. split.
  - destruct (Nat.eq_dec d 0) as [->|Hn]; [reflexivity|].
    destruct (guard_bounds w k d) as (A & C & D); auto; [lia|]. apply numGrid_ok; auto; lia.
  - intros i p Hi H0 E. destruct (guard_bounds w k d) as (A & C & D); auto.
    destruct (advances_spec d i H0) as (p' & E' & (L & F & S & I) & In). rewrite E in E'. injection E' as <-.
    assert (G : grid_point d k (p_levels p) (p_positions p)).
    { split; auto. split; [rewrite (fits_len _ _ F); auto|]. split; auto. apply (idx_le_k d k _ _ H0 L F). lia. }
    split; [|split].
    + rewrite (computeIndex_int_idx d k H0 A C D p G). symmetry. apply computeIndex_idx; [|apply fits_len; auto].
      eapply ne_of_len; eauto.
    + apply (advance_int_ok d k H0 A C D i); auto.
    + intros t Ht. destruct p as [i0 ls ps s]. cbn [p_levels p_positions] in G. apply (parents_int_ok d k); auto.
Qed.

(** ** C18 *)
Lemma C18_main scopes g : (forall s, In s scopes -> NoDup s) -> makeDependenceGraph scopes = Ok g ->
  (Z.of_nat (length (getItems g)) <= INT_MAX)%Z ->
  isComplete_int g = if (Z.of_nat (length (getItems g)) <=? 46341)%Z then Ok (isComplete g) else UB.
Proof.
  intros Hnd E Hm. destruct (makeDependenceGraph_Rep scopes Hnd) as (g' & items & E' & Hs & Hit & Hin & HR).
  rewrite E in E'. injection E' as <-. pose proof (rep_numVertices _ _ HR) as Hnv. rewrite <- (rep_items _ _ HR) in Hnv.
  unfold isComplete_int, isComplete. rewrite Hnv. set (n := Z.of_nat (length (getItems g))) in *.
  assert (0 <= n)%Z by (unfold n; lia). rewrite chk_ok by (unfold INT_MIN; lia). cbn [bind].
  destruct (Z.leb_spec n 46341).
  - rewrite chk_ok by (unfold INT_MIN, INT_MAX; nia). reflexivity.
  - unfold chk. destruct (Z.leb_spec (n * (n - 1)) INT_MAX); [unfold INT_MAX in *; nia|].
    rewrite andb_false_r. reflexivity.
Qed.

Lemma C18_reach n : exists scopes g, (forall s, In s scopes -> NoDup s) /\ makeDependenceGraph scopes = Ok g /\
  length (getItems g) = n.
Proof.
  set (sc := map (fun i => [Z.of_nat i]) (seq 0 n)).
  assert (Hnd : forall s, In s sc -> NoDup s).
  { intros s Hs. apply in_map_iff in Hs. destruct Hs as (i & <- & _). repeat constructor. auto. }
  destruct (makeDependenceGraph_Rep sc Hnd) as (g & items & E & Hs & Hit & Hin & HR).
  exists sc, g. split; auto. split; auto. rewrite (rep_items _ _ HR). simpl.
  rewrite <- (seq_length n 0), <- (map_length Z.of_nat (seq 0 n)). apply Permutation.Permutation_length.
  apply NoDup_Permutation.
  - now apply sorted_lt_NoDup.
  - apply NoDup_map_in; [apply seq_NoDup|]. intros; lia.
  - intros x. rewrite Hin. unfold sc. split.
    + intros (s & Hx & Hxs). apply in_map_iff in Hx. destruct Hx as (i & <- & Hi). destruct Hxs as [<-|[]]. now apply in_map.
    + intros Hx. apply in_map_iff in Hx. destruct Hx as (i & <- & Hi). exists [Z.of_nat i]. split; [|now left].
      apply in_map_iff. eauto.
Qed.
