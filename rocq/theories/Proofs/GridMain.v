(** C13, C14 and the parents of C15. *)
From Coq Require Import List Arith ZArith Bool Lia.
From Verif Require Import Model.Base Model.Counting Model.Point Model.SparseGrid Spec.GridSpec
  Proofs.ListLemmas Proofs.CountLemmas Proofs.PointLemmas.
Import ListNotations.
Local Open Scope nat_scope.

Lemma idx_nonneg ls ps : ls <> [] -> fits ls ps -> (0 <= idx ls ps)%Z.
Proof. intros H1 H2. pose proof (idx_bounds ls ps H1 H2). lia. Qed.

Lemma ne_of_len {A} (l : list A) d : 0 < d -> length l = d -> l <> [].
Proof. intros H E ->. simpl in E. lia. Qed.

Lemma idx_le_k d k ls ps : 0 < d -> length ls = d -> fits ls ps ->
  (list_sum ls <= k <-> (idx ls ps < Z.of_nat (findNumGridPoints d k))%Z).
Proof.
  intros Hd Hl Hf. rewrite numGrid_N3 by auto.
  pose proof (idx_bounds ls ps (ne_of_len _ _ Hd Hl) Hf) as H. rewrite Hl in H. split; intros Hk.
  - pose proof (N3_mono d (list_sum ls + 1) (k + 1) ltac:(lia)). lia.
  - destruct (le_lt_dec (list_sum ls) k); auto.
    pose proof (N3_mono d (k + 1) (list_sum ls) ltac:(lia)). lia.
Qed.

Lemma at_index d ls ps : 0 < d -> length ls = d -> fits ls ps ->
  advances (Z.to_nat (idx ls ps)) (point_new d) = Ok (mkPoint (idx ls ps) ls ps (list_sum ls)).
Proof.
  intros Hd Hl Hf. destruct (advances_spec d (Z.to_nat (idx ls ps)) Hd) as (p & E & V & I).
  rewrite E. f_equal. apply (valid_ext d); auto.
  - split; [auto|]. split; [auto|]. split; auto.
  - simpl. rewrite I, Z2Nat.id; auto. apply idx_nonneg; auto. eapply ne_of_len; eauto.
Qed.

Lemma C14_main : forall d, 0 < d ->
  (forall n, exists p, advances n (point_new d) = Ok p /\
     p_index p = Z.of_nat n /\ computeIndex p = Ok (Z.of_nat n) /\
     p_levelSum p = list_sum (p_levels p) /\
     (forall k, grid_point d k (p_levels p) (p_positions p) <-> n < findNumGridPoints d k)) /\
  (forall k levels positions, grid_point d k levels positions ->
     exists n p, n < findNumGridPoints d k /\ advances n (point_new d) = Ok p /\
       p_levels p = levels /\ p_positions p = positions /\
       (forall n' p', advances n' (point_new d) = Ok p' -> p_levels p' = levels -> p_positions p' = positions ->
          n' = n)).
Proof.
  intros d Hd. split.
  - intros n. destruct (advances_spec d n Hd) as (p & E & (L & F & S & I) & In).
    exists p. split; auto. split; auto.
    assert (Hn : p_levels p <> []) by (eapply ne_of_len; eauto).
    split. { rewrite computeIndex_idx; auto; [congruence|]. symmetry. apply fits_len in F. congruence. }
    split; auto. intros k. pose proof (idx_le_k d k _ _ Hd L F) as H.
    unfold grid_point. pose proof (fits_len _ _ F). split.
    + intros (_ & _ & H1 & _). apply H in H1. lia.
    + intros H1. split; auto. split; [congruence|]. split; auto. apply H. lia.
  - intros k ls ps (L & L' & S & F). exists (Z.to_nat (idx ls ps)). eexists.
    pose proof (idx_nonneg ls ps (ne_of_len _ _ Hd L) F) as H0.
    split. { apply (idx_le_k d k ls ps Hd L F) in S. lia. }
    split; [apply at_index; auto|]. split; auto. split; auto.
    intros n' p' E E1 E2. destruct (advances_spec d n' Hd) as (q & E' & V & I).
    assert (q = p') by congruence. subst q. destruct V as (_ & _ & _ & I'). rewrite I', E1, E2 in I. lia.
Qed.

Definition the_point (o : outcome point) : list nat * list nat :=
  match o with Ok p => (p_levels p, p_positions p) | _ => ([], []) end.

Lemma NoDup_map_in {A C} (f : A -> C) l : NoDup l ->
  (forall x y, In x l -> In y l -> f x = f y -> x = y) -> NoDup (map f l).
Proof.
  induction 1; intros Hf; simpl; constructor.
  - intros Hi. apply in_map_iff in Hi. destruct Hi as (y & E & Hy).
    assert (y = x) by (apply Hf; simpl; auto). subst; auto.
  - apply IHNoDup. intros; apply Hf; simpl; auto.
Qed.

Lemma C13_main : forall d k,
  (exists pts : list (list nat * list nat), NoDup pts /\
     (forall levels positions, In (levels, positions) pts <-> grid_point d k levels positions) /\
     length pts = findNumGridPoints d k).
Proof.
  intros d k. destruct (Nat.eq_dec d 0) as [->|Hd].
  - exists [([], [])]. split; [repeat constructor; auto|]. split; [|reflexivity].
    intros ls ps. split.
    + intros [E|[]]. injection E as <- <-. repeat split; simpl; auto; lia.
    + intros (L & L' & _). destruct ls, ps; try discriminate. now left.
  - assert (Hd' : 0 < d) by lia. destruct (C14_main d Hd') as [A B].
    exists (map (fun n => the_point (advances n (point_new d))) (seq 0 (findNumGridPoints d k))).
    split; [|split].
    + apply NoDup_map_in; [apply seq_NoDup|]. intros x y _ _ E.
      destruct (advances_spec d x Hd') as (p & E1 & V1 & I1), (advances_spec d y Hd') as (q & E2 & V2 & I2).
      rewrite E1, E2 in E. simpl in E. injection E as E3 E4.
      destruct V1 as (_ & _ & _ & V1), V2 as (_ & _ & _ & V2). rewrite E3, E4 in V1. lia.
    + intros ls ps. rewrite in_map_iff. split.
      * intros (n & E & Hn). apply in_seq in Hn. destruct (A n) as (p & E1 & _ & _ & _ & Hg).
        rewrite E1 in E. simpl in E. injection E as <- <-. apply Hg. lia.
      * intros Hg. destruct (B k ls ps Hg) as (n & p & Hn & E & E1 & E2 & _).
        exists n. rewrite E. simpl. split; [congruence|]. apply in_seq. lia.
    + now rewrite map_length, seq_length.
Qed.

(** ** Parents *)
Definition row (l : nat) : list (nat * nat) := map (fun j => (l, j)) (seq 0 (2 ^ l)).
Definition rows (a n : nat) : list (nat * nat) := flat_map row (seq a n).
Definition below (l : nat) : list (nat * nat) := rows 0 l.
(** the nodes from (l, j) on, below level [lev] *)
Definition from (lev l j : nat) : list (nat * nat) :=
  map (fun j => (l, j)) (seq j (2 ^ l - j)) ++ rows (l + 1) (lev - l - 1).

Definition repl (ls ps : list nat) (t : nat) (s : nat * nat) : point :=
  mkPoint (idx (upd ls t (fst s)) (upd ps t (snd s))) (upd ls t (fst s)) (upd ps t (snd s))
          (list_sum (upd ls t (fst s))).

Lemma fold_sum l : forall a, fold_left Nat.add l a = a + list_sum l.
Proof. induction l; intros b; simpl; [lia|]. rewrite IHl. lia. Qed.

Lemma setIndex_spec i ls ps s : ls <> [] -> length ps = length ls ->
  setIndex (mkPoint i ls ps s) = Ok (mkPoint (idx ls ps) ls ps s).
Proof.
  intros H1 H2. unfold setIndex. rewrite computeIndex_idx; auto.
Qed.

Lemma upd_upd {A} (l : list A) t x y : upd (upd l t x) t y = upd l t y.
Proof. revert t. induction l; intros [|t]; simpl; auto. now rewrite IHl. Qed.
Lemma upd_ne {A} (l : list A) t x : l <> [] -> upd l t x <> [].
Proof. destruct l, t; simpl; congruence. Qed.

Section Par.
Variables (ls ps : list nat) (t : nat).
Hypothesis Hl : length ps = length ls.
Hypothesis Ht : t < length ls.

Lemma ls_ne : ls <> [].
Proof. destruct ls; simpl in *; [lia|congruence]. Qed.

Lemma firstParent_spec i s : firstParent (mkPoint i ls ps s) t = Ok (repl ls ps t (0, 0)).
Proof.
  unfold firstParent. cbn [p_levels p_positions p_index p_levelSum].
  destruct (nth_error ls t) as [a|] eqn:E1; [|apply nth_error_None in E1; lia].
  destruct (nth_error ps t) as [b|] eqn:E2; [|apply nth_error_None in E2; lia].
  rewrite (vec_at_Ok _ _ _ E1), (vec_at_Ok _ _ _ E2). cbn [bind].
  unfold setLevelSum. cbn [p_levels p_positions p_index p_levelSum].
  rewrite setIndex_spec, fold_sum; [reflexivity|apply upd_ne, ls_ne|now rewrite !upd_length].
Qed.

Lemma advDir_spec l j : j < 2 ^ l ->
  advanceInDirection (repl ls ps t (l, j)) t =
  Ok (repl ls ps t (if j <? 2 ^ l - 1 then (l, j + 1) else (l + 1, 0))).
Proof.
  intros Hj. unfold advanceInDirection, advancePositionInDirection, repl.
  cbn [p_levels p_positions p_index p_levelSum fst snd].
  rewrite (vec_at_Ok (upd ps t j) t j) by (apply nth_error_upd_eq; lia).
  rewrite (vec_at_Ok (upd ls t l) t l) by (apply nth_error_upd_eq; lia).
  cbn [bind]. destruct (j <? 2 ^ l - 1); cbn [bind fst snd].
  - rewrite setIndex_spec, upd_upd; [reflexivity|apply upd_ne, ls_ne|now rewrite !upd_length].
  - unfold setLevelSum. cbn [p_levels p_positions p_index p_levelSum].
    rewrite setIndex_spec, fold_sum, !upd_upd; [reflexivity|apply upd_ne, upd_ne, ls_ne|now rewrite !upd_length].
Qed.

Lemma getLevel_repl l j : getLevel (repl ls ps t (l, j)) t = Ok l.
Proof. unfold getLevel, repl. simpl. apply vec_at_Ok, nth_error_upd_eq. auto. Qed.
Lemma getPosition_repl l j : getPosition (repl ls ps t (l, j)) t = Ok j.
Proof. unfold getPosition, repl. simpl. apply vec_at_Ok, nth_error_upd_eq. lia. Qed.

Lemma from_step lev l j : l < lev -> j < 2 ^ l - 1 -> from lev l j = (l, j) :: from lev l (j + 1).
Proof.
  intros H1 H2. unfold from. replace (2 ^ l - j) with (S (2 ^ l - (j + 1))) by lia.
  cbn [seq map]. rewrite Nat.add_1_r. reflexivity.
Qed.
Lemma from_wrap lev l j : l < lev -> j = 2 ^ l - 1 -> from lev l j = (l, j) :: (if l + 1 <? lev then from lev (l + 1) 0 else []).
Proof.
  intros H1 ->. unfold from. pose proof (pow2_pos l).
  replace (2 ^ l - (2 ^ l - 1)) with 1 by lia. cbn [seq map app]. f_equal.
  destruct (Nat.ltb_spec (l + 1) lev).
  - replace (lev - l - 1) with (S (lev - (l + 1) - 1)) by lia. unfold rows. cbn [seq flat_map].
    rewrite Nat.add_1_r at 2. rewrite Nat.sub_0_r. unfold row at 1. now rewrite !Nat.add_1_r.
  - replace (lev - l - 1) with 0 by lia. reflexivity.
Qed.

Lemma parents_loop_spec lev : forall fuel l j, l <= lev -> j < 2 ^ l -> (l = lev -> j = 0) ->
  2 ^ lev - (2 ^ l + j) <= fuel ->
  parents_loop fuel lev t (repl ls ps t (l, j)) =
  Ok (if l <? lev then map (repl ls ps t) (from lev l j) else []).
Proof.
  induction fuel; intros l j Hlv Hj H0 Hf; cbn [parents_loop]; rewrite getLevel_repl; cbn [bind];
    destruct (Nat.ltb_spec l lev) as [Hlt|Hge]; auto.
  - exfalso. assert (2 ^ S l <= 2 ^ lev) by (apply Nat.pow_le_mono_r; lia). cbn [Nat.pow] in *. lia.
  - rewrite advDir_spec by auto. cbn [bind]. destruct (Nat.ltb_spec j (2 ^ l - 1)) as [Hb|Hb].
    + rewrite (IHfuel l (j + 1)) by lia. destruct (Nat.ltb_spec l lev); [|lia]. cbn [bind].
      rewrite (from_step lev l j) by auto. reflexivity.
    + assert (j = 2 ^ l - 1) by lia.
      assert (Hp : 2 ^ (l + 1) = 2 ^ l + 2 ^ l) by (rewrite Nat.add_1_r; cbn [Nat.pow]; lia).
      rewrite (IHfuel (l + 1) 0); [| lia | apply pow2_pos | lia | lia]. cbn [bind].
      rewrite (from_wrap lev l j) by auto. destruct (l + 1 <? lev); reflexivity.
Qed.

Lemma parents_spec i s lev : nth_error ls t = Some lev ->
  parents (mkPoint i ls ps s) t = Ok (map (repl ls ps t) (below lev)).
Proof.
  intros E. unfold parents. rewrite firstParent_spec. cbn [bind].
  unfold getLevel. cbn [p_levels]. rewrite (vec_at_Ok _ _ _ E). cbn [bind].
  rewrite parents_loop_spec; try lia.
  - f_equal. destruct (Nat.ltb_spec 0 lev).
    + f_equal. unfold below, rows. destruct lev; [lia|]. cbn [seq flat_map]. unfold from, rows, row at 2.
      rewrite !Nat.sub_0_r, Nat.add_0_l. simpl. now rewrite Nat.sub_0_r.
    + assert (lev = 0) by lia. subst. reflexivity.
  - simpl. lia.
Qed.
End Par.

Lemma row_In l s : In s (row l) <-> fst s = l /\ snd s < 2 ^ l.
Proof.
  unfold row. rewrite in_map_iff. split.
  - intros (j & <- & Hj). apply in_seq in Hj. simpl. lia.
  - destruct s as [a b]. simpl. intros [-> H]. exists b. split; auto. apply in_seq. lia.
Qed.
Lemma rows_In a n s : In s (rows a n) <-> a <= fst s < a + n /\ snd s < 2 ^ fst s.
Proof.
  unfold rows. rewrite in_flat_map. split.
  - intros (l & Hl & Hs). apply row_In in Hs. apply in_seq in Hl. destruct Hs as [-> Hs]. lia.
  - intros [H1 H2]. exists (fst s). split; [apply in_seq; lia|]. apply row_In. auto.
Qed.
Lemma below_In l s : In s (below l) <-> fst s < l /\ snd s < 2 ^ fst s.
Proof. unfold below. rewrite rows_In. lia. Qed.
Lemma row_NoDup l : NoDup (row l).
Proof. apply NoDup_map_in; [apply seq_NoDup|]. intros x y _ _ E. congruence. Qed.
Lemma NoDup_app_disj {A} (l1 l2 : list A) : NoDup l1 -> NoDup l2 -> (forall x, In x l1 -> ~ In x l2) -> NoDup (l1 ++ l2).
Proof.
  induction 1; intros H2 H3; simpl; auto. constructor.
  - rewrite in_app_iff. intros [Hi|Hi]; [auto|]. apply (H3 x); simpl; auto.
  - apply IHNoDup; auto. intros y Hy. apply H3. simpl; auto.
Qed.
Lemma rows_NoDup n : forall a, NoDup (rows a n).
Proof.
  induction n; intros a; [constructor|]. unfold rows. cbn [seq flat_map]. apply NoDup_app_disj.
  - apply row_NoDup.
  - apply IHn.
  - intros s Hs. apply row_In in Hs. fold (rows (S a) n). rewrite rows_In. lia.
Qed.

Lemma upd_nth_same {A} (l1 l2 : list A) t x : length l1 = length l2 ->
  nth_error l1 t = Some x -> (forall u, u <> t -> nth_error l1 u = nth_error l2 u) -> l1 = upd l2 t x.
Proof.
  intros Hl Hx H. apply nth_error_ext_all. intros u.
  assert (Ht : t < length l2) by (rewrite <- Hl; apply nth_error_Some; congruence).
  destruct (Nat.eq_dec u t) as [->|Hn]; [now rewrite nth_error_upd_eq|].
  rewrite nth_error_upd_neq by auto. auto.
Qed.

Lemma list_sum_upd l t x y : nth_error l t = Some y -> list_sum (upd l t x) + y = list_sum l + x.
Proof.
  revert t. induction l as [|a l IH]; intros [|t] E; simpl in *; try discriminate.
  - injection E as ->. lia.
  - specialize (IH t E). lia.
Qed.
Lemma fits_upd ls ps t l j : fits ls ps -> j < 2 ^ l -> fits (upd ls t l) (upd ps t j).
Proof.
  intros H Hj. revert t. induction H; intros [|t]; simpl; constructor; auto.
Qed.
Lemma fits_nth ls ps t l j : fits ls ps -> nth_error ls t = Some l -> nth_error ps t = Some j -> j < 2 ^ l.
Proof.
  intros H. revert t. induction H; intros [|t] E1 E2; simpl in *; try discriminate; eauto.
  injection E1 as <-. injection E2 as <-. auto.
Qed.
Lemma list_sum_nth ls t l : nth_error ls t = Some l -> l <= list_sum ls.
Proof.
  revert t. induction ls; intros [|t] E; simpl in *; try discriminate.
  - injection E as ->. lia.
  - apply IHls in E. lia.
Qed.

Lemma repl_index_lt ls ps t lev s : 0 < length ls -> fits ls ps -> nth_error ls t = Some lev ->
  In s (below lev) -> (0 <= idx (upd ls t (fst s)) (upd ps t (snd s)) < idx ls ps)%Z.
Proof.
  intros Hne Hf E Hs. apply below_In in Hs.
  assert (Hn : ls <> []) by (destruct ls; simpl in *; [lia|congruence]).
  assert (Hf' : fits (upd ls t (fst s)) (upd ps t (snd s))) by (apply fits_upd; tauto).
  pose proof (idx_bounds _ _ Hn Hf) as B1. pose proof (idx_bounds _ _ (upd_ne _ t (fst s) Hn) Hf') as B2.
  rewrite upd_length in B2. pose proof (list_sum_upd ls t (fst s) lev E).
  pose proof (N3_mono (length ls) (list_sum (upd ls t (fst s)) + 1) (list_sum ls) ltac:(lia)). lia.
Qed.

Lemma C15_parents_main : forall d k i t p, i < findNumGridPoints d k -> t < d ->
  advances i (point_new d) = Ok p ->
  (forall l, In l (p_levels p) -> l <= k) /\
  exists ps, parents p t = Ok ps /\
    NoDup (map (fun q => (p_levels q, p_positions q)) ps) /\
    (forall levels positions, In (levels, positions) (map (fun q => (p_levels q, p_positions q)) ps) <->
       grid_point d k levels positions /\
       (forall u, u <> t -> nth_error levels u = nth_error (p_levels p) u /\
                            nth_error positions u = nth_error (p_positions p) u) /\
       nth t levels 0 < nth t (p_levels p) 0) /\
    (forall q, In q ps -> (0 <= p_index q < Z.of_nat i)%Z /\
       advances (Z.to_nat (p_index q)) (point_new d) = Ok q).
Proof.
  intros d k i t p Hi Ht E. assert (Hd : 0 < d) by lia.
  destruct (advances_spec d i Hd) as (p' & E' & V & I). assert (p' = p) by congruence. subst p'.
  destruct V as (L & F & S & I'). pose proof (fits_len _ _ F) as FL.
  assert (Hk : list_sum (p_levels p) <= k) by (apply (idx_le_k d k _ _ Hd L F); lia).
  destruct (nth_error (p_levels p) t) as [lev|] eqn:El; [|apply nth_error_None in El; lia].
  assert (Hnth : nth t (p_levels p) 0 = lev) by now apply nth_error_nth.
  split. { intros l Hin. apply In_nth_error in Hin. destruct Hin as (n & Hn). apply list_sum_nth in Hn. lia. }
  exists (map (repl (p_levels p) (p_positions p) t) (below lev)).
  split. { destruct p as [pi pl pp psum]. apply parents_spec; simpl in *; auto; lia. }
  assert (Hmem : forall s, In s (below lev) -> grid_point d k (upd (p_levels p) t (fst s)) (upd (p_positions p) t (snd s))).
  { intros s Hs. apply below_In in Hs. split; [rewrite upd_length; auto|]. split; [rewrite upd_length; lia|].
    split; [pose proof (list_sum_upd _ t (fst s) _ El); lia|]. apply fits_upd; tauto. }
  split; [|split].
  - rewrite map_map. simpl. apply NoDup_map_in; [apply rows_NoDup|].
    intros x y _ _ Exy. injection Exy as E1 E2.
    assert (X1 : nth_error (upd (p_levels p) t (fst x)) t = nth_error (upd (p_levels p) t (fst y)) t) by congruence.
    assert (X2 : nth_error (upd (p_positions p) t (snd x)) t = nth_error (upd (p_positions p) t (snd y)) t) by congruence.
    rewrite !nth_error_upd_eq in X1 by lia. rewrite !nth_error_upd_eq in X2 by lia.
    destruct x, y. simpl in *. congruence.
  - intros ls ps. rewrite map_map, in_map_iff. simpl. split.
    + intros (s & Es & Hs). injection Es as <- <-. split; [now apply Hmem|]. split.
      * intros u Hu. rewrite !nth_error_upd_neq by auto. auto.
      * rewrite Hnth. rewrite (nth_error_nth _ _ 0 (nth_error_upd_eq (p_levels p) t (fst s) ltac:(lia))).
        apply below_In in Hs. lia.
    + intros (Hg & Hu & Hlt). destruct Hg as (L1 & L2 & Sk & F1).
      destruct (nth_error ls t) as [a|] eqn:Ea; [|apply nth_error_None in Ea; lia].
      destruct (nth_error ps t) as [b|] eqn:Eb; [|apply nth_error_None in Eb; lia].
      rewrite (nth_error_nth _ _ 0 Ea), Hnth in Hlt.
      exists (a, b). simpl. split.
      * f_equal; symmetry; apply upd_nth_same; auto; try lia; intros u Hn; now apply Hu.
      * apply below_In. simpl. split; auto. eapply fits_nth; eauto.
  - intros q Hq. apply in_map_iff in Hq. destruct Hq as (s & <- & Hs). unfold repl at 1 2. cbn [p_index].
    pose proof (repl_index_lt (p_levels p) (p_positions p) t lev s ltac:(lia) F El Hs) as H. split; [lia|].
    destruct (Hmem s Hs) as (G1 & _ & _ & G4). unfold repl. cbn [p_index]. now apply at_index.
Qed.
