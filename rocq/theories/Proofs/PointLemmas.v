From Coq Require Import List Arith ZArith Bool Lia.
From Verif Require Import Model.Base Model.Counting Model.Point Spec.GridSpec
  Proofs.ListLemmas Proofs.CountLemmas.
Import ListNotations.

Notation fits := (Forall2 (fun l p : nat => p < 2 ^ l)).

Lemma foldM_seq_inv {St} (f : St -> nat -> outcome St) (P : nat -> St -> Prop) n : forall a s,
  P a s -> (forall i s, (a <= i < a + n)%nat -> P i s -> exists s', f s i = Ok s' /\ P (S i) s') ->
  exists s', foldM f (seq a n) s = Ok s' /\ P (a + n)%nat s'.
Proof.
  induction n; intros a s H0 Hs; simpl.
  - exists s. rewrite Nat.add_0_r. auto.
  - destruct (Hs a s) as (s1 & E & H1); [lia|auto|]. rewrite E. cbn [bind].
    destruct (IHn (S a) s1) as (s' & E' & H'); auto. { intros; apply Hs; auto; lia. }
    exists s'. split; auto. now rewrite <- plus_n_Sm.
Qed.

(** ** The three parts of the index *)
Fixpoint mix (levels positions : list nat) : nat :=
  match levels, positions with
  | l :: ls, p :: ps => p + 2 ^ l * mix ls ps
  | _, _ => 0
  end.
Fixpoint I2 (t s : nat) (ls : list nat) : Z :=
  match ls with
  | [] => 0
  | l :: ls' => Z.of_nat (B t (s + l)) - Z.of_nat (B t s) + I2 (t + 1) (s + l) ls'
  end.
Definition idx (levels positions : list nat) : Z :=
  Z.of_nat (mix levels positions) + I2 0 0 levels * 2 ^ Z.of_nat (list_sum levels)
  + Z.of_nat (N3 (length levels) (list_sum levels)).

Lemma pow2_pos n : 1 <= 2 ^ n.
Proof. induction n; simpl; lia. Qed.
Lemma pow2_Z n : Z.of_nat (2 ^ n) = (2 ^ Z.of_nat n)%Z.
Proof. rewrite Nat2Z.inj_pow. reflexivity. Qed.

Lemma mix_lt ls ps : fits ls ps -> mix ls ps < 2 ^ list_sum ls.
Proof.
  induction 1; simpl; auto. rewrite Nat.pow_add_r. nia.
Qed.
Lemma mix_inj ls : forall ps ps', fits ls ps -> fits ls ps' -> mix ls ps = mix ls ps' -> ps = ps'.
Proof.
  induction ls as [|l ls IH]; intros ps ps' H H'; inversion H; inversion H'; subst; simpl; auto.
  intros E. assert (y = y0).
  { assert (E' : (y + 2 ^ l * mix ls l') mod 2 ^ l = (y0 + 2 ^ l * mix ls l'0) mod 2 ^ l) by now rewrite E.
    rewrite !(Nat.mul_comm (2 ^ l)) in E'. rewrite !Nat.mod_add in E' by (pose proof (pow2_pos l); lia).
    rewrite !Nat.mod_small in E' by auto. auto. }
  subst. f_equal. apply IH; auto. pose proof (pow2_pos l). nia.
Qed.
Lemma mix_zero ls : mix ls (map (fun _ => 0) ls) = 0.
Proof. induction ls; simpl; auto. rewrite IHls. lia. Qed.
Lemma fits_zero ls : fits ls (map (fun _ => 0) ls).
Proof. induction ls; simpl; constructor; auto. pose proof (pow2_pos a). lia. Qed.
Lemma fits_len ls ps : fits ls ps -> length ps = length ls.
Proof. induction 1; simpl; auto. Qed.

Lemma I2_app t s a b : I2 t s (a ++ b) = (I2 t s a + I2 (t + length a) (s + list_sum a) b)%Z.
Proof.
  revert t s. induction a as [|x a IH]; intros t s; simpl.
  - now rewrite !Nat.add_0_r.
  - rewrite IH. replace (t + 1 + length a) with (t + S (length a)) by lia.
    replace (s + x + list_sum a) with (s + (x + list_sum a)) by lia. lia.
Qed.
Lemma I2_repeat t s n : I2 t s (repeat 0 n) = 0%Z.
Proof.
  revert t s. induction n; intros t s; simpl; auto. rewrite IHn, Nat.add_0_r. lia.
Qed.
Lemma I2_nonneg t s ls : (0 <= I2 t s ls)%Z.
Proof.
  revert t s. induction ls; intros t s; simpl; [lia|].
  pose proof (B_mono t s (s + a)). specialize (IHls (t + 1) (s + a)). lia.
Qed.
Lemma B_step T A : B (S T) A + 0 = B (S T) A -> forall A', A < A' ->
  B (S T) A + B T A' <= B (S T) A'.
Proof.
  intros _ A' H. destruct A'; [lia|]. rewrite B_S. pose proof (B_mono (S T) A A'). lia.
Qed.
Lemma list_sum_snoc a l : list_sum (a ++ [l]) = list_sum a + l.
Proof. rewrite list_sum_app. simpl. lia. Qed.
Lemma I2_snoc a l : I2 0 0 (a ++ [l]) =
  (I2 0 0 a + Z.of_nat (B (length a) (list_sum a + l)) - Z.of_nat (B (length a) (list_sum a)))%Z.
Proof. rewrite I2_app. simpl. lia. Qed.
Lemma I2_lt ls : ls <> [] -> (I2 0 0 ls < Z.of_nat (B (length ls - 1) (list_sum ls)))%Z.
Proof.
  induction ls as [|l a IH] using rev_ind; intros H; [congruence|].
  rewrite I2_snoc, list_sum_snoc, app_length. simpl (length [l]).
  replace (length a + 1 - 1) with (length a) by lia.
  destruct (list_eq_dec Nat.eq_dec a []) as [->|Ha].
  - simpl. rewrite !B_0_l. lia.
  - specialize (IH Ha). destruct (length a) as [|T] eqn:ET; [destruct a; simpl in *; congruence|].
    simpl in IH. rewrite Nat.sub_0_r in IH.
    destruct (list_sum a) as [|s] eqn:Es.
    + rewrite B_0_r in *. simpl. lia.
    + rewrite (B_S T s). pose proof (B_pos (S T) s). lia.
Qed.

Lemma I2_inj : forall ls ls', length ls = length ls' -> list_sum ls = list_sum ls' ->
  I2 0 0 ls = I2 0 0 ls' -> ls = ls'.
Proof.
  induction ls as [|l a IH] using rev_ind; intros ls' Hl Hs HI.
  - destruct ls'; [auto|discriminate].
  - destruct (exists_last (l := ls')) as (a' & l' & ->).
    { intros ->. rewrite app_length in Hl. simpl in Hl. lia. }
    rewrite !app_length in Hl. simpl in Hl. assert (Hla : length a = length a') by lia.
    rewrite !list_sum_snoc in Hs. rewrite !I2_snoc in HI. rewrite <- Hla, <- Hs in HI.
    destruct (Nat.lt_trichotomy (list_sum a) (list_sum a')) as [H|[H|H]].
    + exfalso. assert (Hn : a' <> []) by (intros ->; simpl in H; lia).
      pose proof (I2_lt a' Hn) as H1. pose proof (I2_nonneg 0 0 a) as H2.
      destruct (length a) as [|T] eqn:ET; [destruct a'; simpl in *; [congruence|lia]|].
      rewrite <- Hla in H1. replace (S T - 1) with T in H1 by lia.
      pose proof (B_step T (list_sum a) ltac:(lia) (list_sum a') H). lia.
    + assert (l = l') by lia. subst l'. f_equal. apply IH; auto. rewrite H in HI. lia.
    + exfalso. assert (Hn : a <> []) by (intros ->; simpl in H; lia).
      pose proof (I2_lt a Hn) as H1. pose proof (I2_nonneg 0 0 a') as H2.
      destruct (length a) as [|T] eqn:ET; [destruct a; simpl in *; [congruence|lia]|].
      replace (S T - 1) with T in H1 by lia.
      pose proof (B_step T (list_sum a') ltac:(lia) (list_sum a) H). lia.
Qed.

(** ** Bounds and injectivity of the index *)
Lemma idx_bounds ls ps : ls <> [] -> fits ls ps ->
  (Z.of_nat (N3 (length ls) (list_sum ls)) <= idx ls ps < Z.of_nat (N3 (length ls) (list_sum ls + 1)))%Z.
Proof.
  intros Hn Hf. unfold idx. pose proof (mix_lt _ _ Hf) as H1. pose proof (I2_nonneg 0 0 ls) as H2.
  pose proof (I2_lt ls Hn) as H3. rewrite Nat.add_1_r. cbn [N3]. rewrite <- pow2_Z.
  set (P := 2 ^ list_sum ls) in *. assert (1 <= P) by apply pow2_pos. split; [nia|].
  rewrite !Nat2Z.inj_add, Nat2Z.inj_mul. nia.
Qed.

Lemma N3_interval d s s' x : (Z.of_nat (N3 d s) <= x < Z.of_nat (N3 d (s + 1)))%Z ->
  (Z.of_nat (N3 d s') <= x < Z.of_nat (N3 d (s' + 1)))%Z -> s = s'.
Proof.
  intros H H'. destruct (Nat.lt_trichotomy s s') as [L|[L|L]]; auto.
  - pose proof (N3_mono d (s + 1) s' ltac:(lia)). lia.
  - pose proof (N3_mono d (s' + 1) s ltac:(lia)). lia.
Qed.

Lemma idx_inj ls ps ls' ps' : ls <> [] -> length ls' = length ls -> fits ls ps -> fits ls' ps' ->
  idx ls ps = idx ls' ps' -> ls = ls' /\ ps = ps'.
Proof.
  intros Hn Hl Hf Hf' E.
  assert (Hn' : ls' <> []) by (destruct ls, ls'; simpl in *; congruence).
  assert (Hs : list_sum ls = list_sum ls').
  { apply (N3_interval (length ls) _ _ (idx ls ps)); [now apply idx_bounds|].
    rewrite E, <- Hl. now apply idx_bounds. }
  unfold idx in E. rewrite <- Hs, Hl in E.
  pose proof (mix_lt _ _ Hf) as H1. pose proof (mix_lt _ _ Hf') as H1'. rewrite <- Hs in H1'.
  rewrite <- pow2_Z in E. set (P := 2 ^ list_sum ls) in *.
  assert (HI : I2 0 0 ls = I2 0 0 ls') by nia.
  assert (ls = ls') by (apply I2_inj; auto). subst ls'. split; auto.
  apply (mix_inj ls); auto. lia.
Qed.

(** ** setIndex computes it *)
Lemma index1_fold p : forall ls ps pre pre' i m, p_levels p = pre ++ ls -> p_positions p = pre' ++ ps ->
  length pre = length pre' -> length ps = length ls ->
  exists m', foldM (index1_step p) (seq (length pre) (length ls)) (i, m) = Ok (i + m * Z.of_nat (mix ls ps), m')%Z.
Proof.
  induction ls as [|l ls IH]; intros [|q ps] pre pre' i m Hl Hp Hpre Hlen; simpl in Hlen; try discriminate.
  - simpl. exists m. f_equal. f_equal. lia.
  - cbn [length seq foldM]. unfold index1_step at 1.
    rewrite (vec_at_Ok (p_positions p) (length pre) q), (vec_at_Ok (p_levels p) (length pre) l).
    2:{ rewrite Hl, nth_error_app2, Nat.sub_diag; auto. }
    2:{ rewrite Hp, Hpre, nth_error_app2, Nat.sub_diag; auto. }
    cbn [bind fst snd].
    destruct (IH ps (pre ++ [l]) (pre' ++ [q]) (i + Z.of_nat q * m)%Z (m * 2 ^ Z.of_nat l)%Z) as (m' & E).
    { now rewrite Hl, <- app_assoc. } { now rewrite Hp, <- app_assoc. }
    { rewrite !app_length. simpl. lia. } { lia. }
    rewrite app_length, Nat.add_1_r in E. exists m'. rewrite E. f_equal. f_equal.
    cbn [mix]. rewrite Nat2Z.inj_add, Nat2Z.inj_mul, pow2_Z. ring.
Qed.
Lemma index2_fold p : forall ls pre s i, p_levels p = pre ++ ls ->
  foldM (index2_step p) (seq (length pre) (length ls)) (s, i) = Ok (s + list_sum ls, (i + I2 (length pre) s ls)%Z).
Proof.
  induction ls as [|l ls IH]; intros pre s i Hl.
  - simpl. now rewrite Nat.add_0_r, Z.add_0_r.
  - cbn [length seq foldM]. unfold index2_step at 1.
    rewrite (vec_at_Ok (p_levels p) (length pre) l) by (rewrite Hl, nth_error_app2, Nat.sub_diag; auto).
    cbn [bind fst snd]. pose proof (IH (pre ++ [l])) as E. rewrite app_length, Nat.add_1_r in E.
    rewrite E by now rewrite Hl, <- app_assoc.
    f_equal. f_equal.
    + simpl. lia.
    + cbn [I2]. rewrite !choose_B. rewrite Nat.add_1_r. lia.
Qed.
Lemma index3_fold d s : fold_left (fun acc s =>
   acc + Z.of_nat (choose (d - 1 + s) (d - 1)) * 2 ^ Z.of_nat s)%Z (seq 0 s) 0%Z = Z.of_nat (N3 d s).
Proof.
  induction s; auto. rewrite seq_S, fold_left_app, IHs. cbn [fold_left N3].
  rewrite choose_B, Nat.add_0_l, Nat2Z.inj_add, Nat2Z.inj_mul, pow2_Z. reflexivity.
Qed.

Lemma computeIndex_idx p : p_levels p <> [] -> length (p_positions p) = length (p_levels p) ->
  computeIndex p = Ok (idx (p_levels p) (p_positions p)).
Proof.
  intros Hn Hl. unfold computeIndex.
  destruct (index1_fold p (p_levels p) (p_positions p) [] [] 0 1 eq_refl eq_refl eq_refl Hl) as (m' & E).
  simpl (length []) in E. rewrite E. cbn [bind fst snd].
  destruct (p_levels p) as [|l0 ls] eqn:EL; [congruence|].
  cbn [vec_at nth_error bind length]. replace (S (length ls) - 1) with (length ls) by lia.
  pose proof (index2_fold p ls [l0] l0 0 EL) as E2. simpl (length [l0]) in E2. rewrite E2.
  cbn [bind fst snd].
  pose proof (index3_fold (S (length ls)) (l0 + list_sum ls)) as E3.
  replace (S (length ls) - 1) with (length ls) in E3 by lia. rewrite E3.
  f_equal. unfold idx. cbn [I2 length list_sum fold_right]. fold (list_sum ls).
  rewrite !B_0_l. simpl (0 + l0). simpl (0 + 1). ring.
Qed.

(** ** advance *)
Definition valid (d : nat) (p : point) : Prop :=
  length (p_levels p) = d /\ fits (p_levels p) (p_positions p) /\ p_levelSum p = list_sum (p_levels p) /\
  p_index p = idx (p_levels p) (p_positions p).

Lemma advPos_loop_spec : forall ls ps pre pre', length pre = length pre' -> fits ls ps ->
  (exists ps', advancePositions_loop (pre ++ ls) (pre' ++ ps) (length pre) (length ps) = Ok (true, pre' ++ ps') /\
     fits ls ps' /\ mix ls ps' = mix ls ps + 1) \/
  (advancePositions_loop (pre ++ ls) (pre' ++ ps) (length pre) (length ps) = Ok (false, pre' ++ map (fun _ => 0) ls) /\
     mix ls ps + 1 = 2 ^ list_sum ls).
Proof.
  induction ls as [|l ls IH]; intros ps pre pre' Hpre Hf; inversion Hf; subst.
  - right. simpl. split; auto.
  - cbn [length advancePositions_loop]. unfold advancePositionInDirection.
    rewrite (vec_at_Ok (pre' ++ y :: l') (length pre) y) by (rewrite Hpre, nth_error_app2, Nat.sub_diag; auto).
    rewrite (vec_at_Ok (pre ++ l :: ls) (length pre) l) by (rewrite nth_error_app2, Nat.sub_diag; auto).
    cbn [bind].
    assert (U : forall v, upd (pre' ++ y :: l') (length pre) v = pre' ++ v :: l').
    { intros v. rewrite Hpre. clear. induction pre'; simpl; auto. now rewrite IHpre'. }
    destruct (Nat.ltb_spec y (2 ^ l - 1)) as [Hlt|Hge]; rewrite U; cbn [bind fst snd].
    + left. exists (y + 1 :: l'). split; auto. split; [constructor; auto; lia|]. simpl. lia.
    + assert (y = 2 ^ l - 1) by lia. subst y.
      destruct (IH l' (pre ++ [l]) (pre' ++ [0])) as [(ps' & E & F & M)|(E & M)]; auto.
      { rewrite !app_length. simpl. lia. }
      * left. exists (0 :: ps'). rewrite app_length in E. simpl (length [l]) in E.
        rewrite <- !app_assoc in E. simpl app in E. rewrite E. split; auto.
        split; [constructor; auto; pose proof (pow2_pos l); lia|].
        simpl. rewrite M. pose proof (pow2_pos l). nia.
      * right. rewrite app_length in E. simpl (length [l]) in E.
        rewrite <- !app_assoc in E. simpl app in E. rewrite E. split; auto.
        simpl. rewrite Nat.pow_add_r, <- M. pose proof (pow2_pos l). nia.
Qed.

Lemma advPos_spec ls ps : fits ls ps ->
  (exists ps', advancePositions ls ps = Ok (true, ps') /\ fits ls ps' /\ mix ls ps' = mix ls ps + 1) \/
  (advancePositions ls ps = Ok (false, map (fun _ => 0) ls) /\ mix ls ps + 1 = 2 ^ list_sum ls).
Proof. intros H. exact (advPos_loop_spec ls ps [] [] eq_refl H). Qed.

Lemma split_levels ls : list_sum ls > 0 -> exists t a rest, 0 < a /\ ls = repeat 0 t ++ a :: rest.
Proof.
  induction ls as [|l ls IH]; simpl; [lia|]. intros H. destruct l as [|l].
  - destruct IH as (t & a & rest & Ha & ->); [lia|]. exists (S t), a, rest. auto.
  - exists 0, (S l), ls. simpl. split; auto; lia.
Qed.
Lemma first_nonzero_spec t a rest : 0 < a -> first_nonzero (repeat 0 t ++ a :: rest) = Ok t.
Proof.
  intros Ha. induction t; simpl.
  - destruct a; [lia|auto].
  - rewrite IHt. simpl. f_equal. lia.
Qed.
Lemma list_sum_repeat t : list_sum (repeat 0 t) = 0.
Proof. induction t; simpl; auto. Qed.

Lemma upd_app {A} (a : list A) x b v k : k = length a -> upd (a ++ x :: b) k v = a ++ v :: b.
Proof. intros ->. induction a; simpl; auto. now rewrite IHa. Qed.

Lemma advLevels_spec ls : ls <> [] ->
  (exists ls', advanceLevels ls (list_sum ls) = Ok (Some ls') /\ length ls' = length ls /\
     list_sum ls' = list_sum ls /\ I2 0 0 ls' = (I2 0 0 ls + 1)%Z) \/
  (advanceLevels ls (list_sum ls) = Ok None /\
     (I2 0 0 ls + 1)%Z = Z.of_nat (B (length ls - 1) (list_sum ls))).
Proof.
  intros Hn. unfold advanceLevels.
  destruct (exists_last (l := ls) Hn) as (a0 & b0 & E0).
  assert (Hb : nth_error ls (length ls - 1) = Some b0).
  { rewrite E0, app_length. simpl. rewrite Nat.add_sub, nth_error_app2, Nat.sub_diag; auto. }
  rewrite (vec_get_Ok _ _ _ Hb). cbn [bind].
  assert (Hsum : list_sum ls = list_sum a0 + b0) by (rewrite E0; apply list_sum_snoc).
  destruct (Nat.ltb_spec b0 (list_sum ls)) as [Hlt|Hge].
  - left. destruct (split_levels ls ltac:(lia)) as (t & a & rest & Ha & E).
    destruct rest as [|l rest].
    { exfalso. rewrite E in E0. apply app_inj_tail in E0. destruct E0 as [<- <-].
      rewrite list_sum_repeat in Hsum. lia. }
    rewrite E. rewrite first_nonzero_spec by auto. cbn [bind].
    assert (Lt : length (repeat 0 t) = t) by apply repeat_length.
    assert (N1 : nth_error (repeat 0 t ++ a :: l :: rest) t = Some a).
    { rewrite nth_error_app2; rewrite Lt; auto. now rewrite Nat.sub_diag. }
    assert (N2 : nth_error (repeat 0 t ++ a :: l :: rest) (t + 1) = Some l).
    { rewrite nth_error_app2; rewrite Lt; [|lia]. replace (t + 1 - t) with 1 by lia. reflexivity. }
    unfold vec_get. rewrite N1, N2. cbn [bind].
    exists ((a - 1) :: repeat 0 t ++ (l + 1) :: rest). split; [|split; [|split]].
    + f_equal. f_equal. rewrite (upd_app (repeat 0 t)) by auto.
      assert (E1 : upd (repeat 0 t ++ 0 :: l :: rest) 0 (a - 1) = ((a - 1) :: repeat 0 t) ++ l :: rest).
      { destruct t; simpl; auto. f_equal. clear. induction t; simpl; auto. now rewrite IHt. }
      rewrite E1. rewrite upd_app; auto. simpl. rewrite Lt. lia.
    + rewrite !app_length. simpl. rewrite app_length. simpl. lia.
    + simpl. rewrite !list_sum_app, list_sum_repeat. simpl. lia.
    + cbn [I2]. rewrite !I2_app, !I2_repeat, !list_sum_repeat, !Lt. cbn [I2].
      rewrite !B_0_l. rewrite !Nat.add_0_r, !Nat.add_0_l.
      replace (a - 1 + (l + 1)) with (a + l) by lia. rewrite (Nat.add_comm 1 t).
      replace (t + 1) with (S t) by lia.
      assert (HB : B (S t) a = B t a + B (S t) (a - 1)).
      { destruct a; [lia|]. rewrite B_S. simpl. now rewrite Nat.sub_0_r. }
      rewrite HB. rewrite B_0_r. lia.
  - right. split; auto. assert (Z0 : list_sum a0 = 0) by lia.
    assert (Ea : a0 = repeat 0 (length a0)).
    { clear - Z0. induction a0 as [|x a0 IH]; simpl in *; auto. rewrite <- IH by lia. f_equal. lia. }
    rewrite E0, I2_snoc, list_sum_snoc, app_length, Z0. rewrite Ea at 1. rewrite I2_repeat.
    simpl. rewrite Nat.add_sub, B_0_r. lia.
Qed.

Lemma advance_spec d p : 0 < d -> valid d p ->
  exists q, advance p = Ok q /\ valid d q /\ p_index q = (p_index p + 1)%Z.
Proof.
  intros Hd (Hl & Hf & Hs & Hi). unfold advance.
  assert (Hn : p_levels p <> []) by (destruct (p_levels p); simpl in *; congruence || lia).
  destruct (advPos_spec _ _ Hf) as [(ps' & E & F & M)|(E & M)]; rewrite E; cbn [bind fst snd].
  - eexists. split; [reflexivity|]. split; [|reflexivity]. split; [auto|]. split; [auto|]. split; [auto|].
    simpl. rewrite Hi. unfold idx. rewrite M. lia.
  - rewrite Hs. destruct (advLevels_spec _ Hn) as [(ls' & E1 & L1 & S1 & HI)|(E1 & HI)]; rewrite E1; cbn [bind].
    + eexists. split; [reflexivity|]. split; [|reflexivity]. split; [simpl; congruence|].
      assert (EZ : map (fun _ : nat => 0) (p_levels p) = map (fun _ : nat => 0) ls').
      { assert (ZR : forall l : list nat, map (fun _ => 0) l = repeat 0 (length l)) by (induction l; simpl; congruence).
        rewrite !ZR. congruence. }
      simpl. rewrite EZ. split; [apply fits_zero|]. split; [congruence|].
      rewrite Hi. unfold idx. rewrite mix_zero, HI, S1, L1. rewrite <- pow2_Z. lia.
    + destruct (p_levels p) as [|l0 ls] eqn:EL; [congruence|].
      cbn [map vec_at nth_error bind upd]. eexists. split; [reflexivity|]. split; [|reflexivity].
      assert (ZR : forall l : list nat, map (fun _ => 0) l = repeat 0 (length l)) by (induction l; simpl; congruence).
      assert (Sz : list_sum (map (fun _ : nat => 0) ls) = 0) by (rewrite ZR; apply list_sum_repeat).
      split; [simpl; rewrite map_length; simpl in Hl; auto|].
      simpl p_levels. simpl p_positions. simpl p_levelSum. simpl p_index.
      assert (Ef : 0 :: map (fun _ : nat => 0) ls = map (fun _ => 0) (list_sum (l0 :: ls) + 1 :: map (fun _ => 0) ls)).
      { simpl. f_equal. rewrite map_map. reflexivity. }
      split. { rewrite Ef. apply fits_zero. }
      split. { cbn [list_sum fold_right]. fold (list_sum (map (fun _ : nat => 0) ls)). rewrite Sz.
               fold (list_sum ls). lia. }
      rewrite Hi. unfold idx.
      rewrite Ef at 1. rewrite mix_zero.
      assert (S2 : list_sum (list_sum (l0 :: ls) + 1 :: map (fun _ => 0) ls) = list_sum (l0 :: ls) + 1).
      { cbn [list_sum fold_right]. fold (list_sum (map (fun _ : nat => 0) ls)). rewrite Sz. fold (list_sum ls). lia. }
      change (l0 + list_sum ls) with (list_sum (l0 :: ls)).
      rewrite S2. assert (L2 : length (list_sum (l0 :: ls) + 1 :: map (fun _ : nat => 0) ls) = length (l0 :: ls)).
      { simpl. now rewrite map_length. }
      rewrite L2. assert (I2z : I2 0 0 (list_sum (l0 :: ls) + 1 :: map (fun _ : nat => 0) ls) = 0%Z).
      { cbn [I2]. rewrite ZR, I2_repeat, !B_0_l. lia. }
      rewrite I2z. set (s := list_sum (l0 :: ls)) in *. set (dd := length (l0 :: ls)) in *.
      rewrite (Nat.add_1_r s). cbn [N3]. rewrite Nat2Z.inj_add, Nat2Z.inj_mul, <- HI. rewrite <- pow2_Z. lia.
Qed.

Lemma valid_new d : 0 < d -> valid d (point_new d).
Proof.
  intros Hd. unfold point_new. split; [apply repeat_length|].
  assert (ZR : forall l : list nat, map (fun _ => 0) l = repeat 0 (length l)) by (induction l; simpl; congruence).
  assert (E : repeat 0 d = map (fun _ => 0) (repeat 0 d)) by now rewrite ZR, repeat_length.
  simpl. split; [rewrite E at 2; apply fits_zero|]. split; [now rewrite list_sum_repeat|].
  unfold idx. rewrite E at 2. rewrite mix_zero, I2_repeat, list_sum_repeat. reflexivity.
Qed.

Lemma advances_spec d n : 0 < d -> exists p, advances n (point_new d) = Ok p /\ valid d p /\ p_index p = Z.of_nat n.
Proof.
  intros Hd. induction n.
  - exists (point_new d). split; auto. split; auto. now apply valid_new.
  - destruct IHn as (p & E & V & I). destruct (advance_spec d p Hd V) as (q & E' & V' & I').
    exists q. cbn [advances]. rewrite E. cbn [bind]. split; auto. split; auto. lia.
Qed.

(** the n-th point is the one with index n *)
Lemma valid_ext d p q : 0 < d -> valid d p -> valid d q -> p_index p = p_index q -> p = q.
Proof.
  intros Hd (L1 & F1 & S1 & I1) (L2 & F2 & S2 & I2') E.
  rewrite I1, I2' in E. apply idx_inj in E; auto; try congruence.
  - destruct E as [E1 E2]. destruct p, q; simpl in *. subst. reflexivity.
  - destruct (p_levels p); simpl in *; congruence || lia.
Qed.
