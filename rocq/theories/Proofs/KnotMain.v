(** The knots of src/BasisLevel.cpp and the intervals between them. *)
From Coq Require Import List Reals ZArith Lra Lia Bool.
From Verif Require Import Model.Base Model.Vectors Model.BasisLevel Spec.SplineSpec Proofs.ListLemmas.
Import ListNotations.
Local Open Scope R_scope.

(** * Truncation *)
Lemma truncate_nonneg v : 0 <= v -> IZR (truncate v) <= v < IZR (truncate v) + 1 /\ (0 <= truncate v)%Z.
Proof.
  intros H. unfold truncate. destruct (Rle_dec 0 v); [|lra]. pose proof (base_Int_part v) as [H1 H2].
  split; [lra|]. assert (-1 < IZR (Int_part v)) by lra. apply lt_IZR in H0. lia.
Qed.
Lemma truncate_neg v : v <= 0 -> v <= IZR (truncate v) < v + 1 /\ (truncate v <= 0)%Z.
Proof.
  intros H. unfold truncate. destruct (Rle_dec 0 v) as [H0|H0].
  - assert (v = 0) by lra. subst v. pose proof (base_Int_part 0) as [H1 H2].
    assert (Int_part 0 = 0)%Z as ->; [|simpl; split; [lra|lia]].
    assert (-1 < IZR (Int_part 0)) by lra. assert (IZR (Int_part 0) < 1) by lra.
    apply lt_IZR in H3. apply lt_IZR in H4. lia.
  - pose proof (base_Int_part (- v)) as [H1 H2]. rewrite opp_IZR. split; [lra|].
    assert (-1 < IZR (Int_part (- v))) by lra. apply lt_IZR in H3. lia.
Qed.
Lemma truncate_near v : Rabs (IZR (truncate v) - v) < 1.
Proof.
  destruct (Rle_dec 0 v) as [H|H].
  - destruct (truncate_nonneg v H). apply Rabs_def1; lra.
  - destruct (truncate_neg v) as [? _]; [lra|]. apply Rabs_def1; lra.
Qed.
Lemma truncate_gap v w : v + 2 <= w -> (truncate v < truncate w)%Z.
Proof.
  intros H. pose proof (truncate_near v) as A. pose proof (truncate_near w) as B.
  apply Rabs_def2 in A. apply Rabs_def2 in B. apply lt_IZR. lra.
Qed.
Lemma truncate_bound v (n : Z) : (0 < n)%Z -> Rabs v < IZR n -> (- n < truncate v < n)%Z.
Proof.
  intros Hn H. apply Rabs_def2 in H. destruct (Rle_dec 0 v) as [H0|H0].
  - destruct (truncate_nonneg v H0) as [A B]. split; [lia|]. apply lt_IZR. lra.
  - destruct (truncate_neg v) as [A B]; [lra|]. split; [|lia]. apply lt_IZR. rewrite opp_IZR. lra.
Qed.

Lemma mapM_ok {A B} (f : A -> outcome B) (g : A -> B) l :
  (forall x, In x l -> f x = Ok (g x)) -> mapM f l = Ok (map g l).
Proof.
  induction l as [|x l IH]; intros H; [reflexivity|]. cbn [mapM map]. rewrite (H x) by now left.
  rewrite IH by (intros; apply H; now right). reflexivity.
Qed.

Lemma pow2_INR l : INR (2 ^ l) = 2 ^ l.
Proof. rewrite pow_INR. reflexivity. Qed.
Lemma pow2_ge1 l : (1 <= 2 ^ l)%nat.
Proof. pose proof (Nat.pow_nonzero 2 l ltac:(lia)). lia. Qed.
Lemma numKnots_INR l : INR (numKnots l) + 1 = 2 ^ (l + 1).
Proof.
  unfold numKnots. pose proof (pow2_ge1 (l + 1)). rewrite minus_INR, pow2_INR by lia. simpl. lra.
Qed.
Lemma numKnots_pos l : (1 <= numKnots l)%nat.
Proof. unfold numKnots. pose proof (pow2_ge1 l). rewrite Nat.add_1_r. cbn [Nat.pow]. lia. Qed.

Section Knots.
Variable q : R -> R.
Hypothesis NL : normal_like q.
Variable L : nat.
Hypothesis HL : (1 <= L)%nat.
Hypothesis Fit : knots_fit q L.

Lemma q_half : q (1 / 2) = 0.
Proof. pose proof (nl_odd q NL (1 / 2) ltac:(lra)) as H. replace (1 - 1 / 2) with (1 / 2) in H by field. lra. Qed.
Lemma q_mono a b : 0 < a -> a <= b -> b < 1 -> q a <= q b.
Proof. intros. destruct (Req_dec a b) as [->|]; [lra|]. left. apply (nl_increasing q NL); lra. Qed.
Definition eps (l : nat) : R := / 2 ^ (l + 1).
Lemma eps_pos l : 0 < eps l. Proof. apply Rinv_0_lt_compat, pow_lt. lra. Qed.
Lemma eps_le l : (l <= L)%nat -> eps L <= eps l.
Proof. intros. apply Rinv_le_contravar; [apply pow_lt; lra|]. apply Rle_pow; [lra|lia]. Qed.
Lemma eps_half l : eps l <= 1 / 2.
Proof.
  unfold eps. apply Rle_trans with (/ 2); [|lra]. apply Rinv_le_contravar; [lra|].
  replace 2 with (2 ^ 1) at 1 by ring. apply Rle_pow; [lra|lia].
Qed.
Lemma eps_quarter : eps L <= 1 / 4.
Proof.
  unfold eps. apply Rle_trans with (/ 4); [|lra]. apply Rinv_le_contravar; [lra|].
  replace 4 with (2 ^ 2) at 1 by ring. apply Rle_pow; [lra|lia].
Qed.
Definition unit_q : R := q (1 / 2 + eps L).
Lemma unit_pos : 0 < unit_q.
Proof. unfold unit_q. rewrite <- q_half. pose proof (eps_pos L). pose proof eps_quarter. apply (nl_increasing q NL); lra. Qed.
Lemma scale_pos : 0 < level_scale L.
Proof. unfold level_scale. pose proof (pos_INR L). lra. Qed.
Notation bw := (bandwidth q L).
Lemma bw_eq : bw = level_scale L * unit_q / 10.
Proof. unfold bandwidth. destruct (Nat.ltb_spec 0 L); [reflexivity|lia]. Qed.
Lemma bw_pos : 0 < bw.
Proof. rewrite bw_eq. pose proof scale_pos. pose proof unit_pos. nra. Qed.

(** A probability's place, in bandwidths. *)
Definition place_of (p : R) : R := 10 * q p / unit_q.
Lemma place_eq p : level_scale L * q p / bw = place_of p.
Proof. rewrite bw_eq. unfold place_of. pose proof scale_pos. pose proof unit_pos. field. lra. Qed.
Definition kid (p : R) : Z := truncate (place_of p).
Lemma place_bound p : eps L <= p <= 1 - eps L -> Rabs (place_of p) < IZR (2 ^ 31).
Proof.
  intros Hp. pose proof (eps_pos L). pose proof eps_quarter. pose proof unit_pos as U. 
  assert (HF : 10 * q (1 - eps L) < 2 ^ 31 * unit_q) by exact Fit.
  assert (Hi : q p <= q (1 - eps L)) by (apply q_mono; lra).
  assert (Lo : - q (1 - eps L) <= q p).
  { rewrite (nl_odd q NL (eps L)) by lra. rewrite Ropp_involutive. apply q_mono; lra. }
  replace (IZR (2 ^ 31)) with (2 ^ 31) by exact (pow_IZR 2 31).
  unfold place_of. apply Rabs_def1.
  - apply Rmult_lt_reg_r with unit_q; auto. replace (10 * q p / unit_q * unit_q) with (10 * q p) by (field; lra). lra.
  - apply Rmult_lt_reg_r with unit_q; auto. replace (10 * q p / unit_q * unit_q) with (10 * q p) by (field; lra). lra.
Qed.
Lemma kid_bound p : eps L <= p <= 1 - eps L -> (- 2 ^ 31 < kid p < 2 ^ 31)%Z.
Proof. intros. apply truncate_bound; [reflexivity|]. now apply place_bound. Qed.
Lemma knot_id_ok p : eps L <= p <= 1 - eps L -> knot_id q L p = Ok (kid p).
Proof.
  intros Hp. unfold knot_id, quotient_to_int. pose proof bw_pos.
  destruct (Req_EM_T bw 0); [lra|]. unfold to_int. rewrite place_eq. fold (kid p).
  pose proof (kid_bound p Hp). destruct (Z.leb_spec (- 2 ^ 31) (kid p)); [|lia].
  destruct (Z.ltb_spec (kid p) (2 ^ 31)); [|lia]. reflexivity.
Qed.

(** Neighbouring knots are at least ten bandwidths apart. *)
Lemma place_gap a d : eps L <= d -> 0 < a -> a + d < 1 -> (1 / 2 <= a \/ a + d <= 1 / 2) -> place_of a + 10 <= place_of (a + d).
Proof.
  intros Hd Ha Hb C. pose proof (eps_pos L). pose proof eps_quarter. pose proof unit_pos as U.
  enough (q a + unit_q <= q (a + d)) as E.
  { unfold place_of. apply Rmult_le_reg_r with unit_q; auto.
    replace ((10 * q a / unit_q + 10) * unit_q) with (10 * (q a + unit_q)) by (field; lra).
    replace (10 * q (a + d) / unit_q * unit_q) with (10 * q (a + d)) by (field; lra). lra. }
  assert (G : forall b, 1 / 2 <= b -> b + d < 1 -> q b + unit_q <= q (b + d)).
  { intros b H1 H2. pose proof (nl_convex q NL (1 / 2) b (eps L) ltac:(lra) H1 ltac:(lra) ltac:(lra)) as K.
    fold unit_q in K. rewrite q_half in K. pose proof (q_mono (b + eps L) (b + d)). lra. }
  destruct C as [C|C]; [apply G; auto|].
  specialize (G (1 - (a + d)) ltac:(lra) ltac:(lra)). replace (1 - (a + d) + d) with (1 - a) in G by ring.
  rewrite !(nl_odd q NL) in G by lra. lra.
Qed.

Section Level.
Variable l : nat.
Hypothesis Hl : (l <= L)%nat.
Notation n := (numKnots l).
Definition prob (i : nat) : R := INR (S i) * eps l.
Lemma total_prob_eq i : total_prob l i = prob i.
Proof.
  unfold total_prob, prob, eps. rewrite numKnots_INR, S_INR. unfold Rdiv. reflexivity.
Qed.
Lemma knots_eps : INR (2 ^ (l + 1)) * eps l = 1.
Proof. rewrite pow2_INR. unfold eps. field. apply pow_nonzero. lra. Qed.
Lemma prob_range i : (i < n)%nat -> eps L <= prob i <= 1 - eps L.
Proof.
  intros Hi. unfold prob. pose proof (eps_pos l). pose proof (eps_le l Hl). pose proof knots_eps.
  assert (1 <= INR (S i)) by (rewrite S_INR; pose proof (pos_INR i); lra).
  assert (INR (S i) + 1 <= INR (2 ^ (l + 1))).
  { rewrite <- S_INR. apply le_INR. unfold numKnots in Hi. lia. }
  split; nra.
Qed.
Definition kd (i : nat) : Z := kid (prob i).
Lemma kd_step i : (S i < n)%nat -> (kd i < kd (S i))%Z.
Proof.
  intros Hi. unfold kd, kid. apply truncate_gap.
  replace (prob (S i)) with (prob i + eps l) by (unfold prob; rewrite (S_INR (S i)); ring).
  pose proof (eps_pos l). pose proof (eps_le l Hl). pose proof (eps_pos L).
  pose proof (prob_range i ltac:(lia)). pose proof (prob_range (S i) Hi) as HS2.
  replace (prob (S i)) with (prob i + eps l) in HS2 by (unfold prob; rewrite (S_INR (S i)); ring).
  enough (place_of (prob i) + 10 <= place_of (prob i + eps l)) by lra.
  apply place_gap; try lra.
  (* 1/2 is a multiple of eps l *)
  assert (Hh : INR (2 ^ l) * eps l = 1 / 2).
  { pose proof knots_eps as K. rewrite Nat.add_1_r in K. cbn [Nat.pow] in K. rewrite mult_INR in K. simpl (INR 2) in K. lra. }
  unfold prob. destruct (le_lt_dec (2 ^ l) (S i)) as [A|A].
  - left. rewrite <- Hh. apply Rmult_le_compat_r; [lra|]. now apply le_INR.
  - right. rewrite <- Hh. replace (INR (S i) * eps l + eps l) with (INR (S (S i)) * eps l) by (rewrite (S_INR (S i)); ring).
    apply Rmult_le_compat_r; [lra|]. apply le_INR. lia.
Qed.
Lemma kd_lt i j : (i < j)%nat -> (j < n)%nat -> (kd i < kd j)%Z.
Proof.
  intros H. induction H as [|j H IH]; intros Hj; [now apply kd_step|]. specialize (IH ltac:(lia)). pose proof (kd_step j Hj). lia.
Qed.
Lemma kd_first : (kd 0 <= 0)%Z.
Proof.
  unfold kd, kid. apply truncate_neg. unfold place_of. pose proof unit_pos.
  enough (q (prob 0) <= 0) by (apply Rmult_le_reg_r with unit_q; auto; replace (10 * q (prob 0) / unit_q * unit_q) with (10 * q (prob 0)) by (field; lra); lra).
  rewrite <- q_half. unfold prob. simpl (INR 1). rewrite Rmult_1_l. pose proof (eps_pos l). pose proof (eps_half l).
  apply q_mono; lra.
Qed.
Lemma kd_bound i : (i < n)%nat -> (- 2 ^ 31 < kd i < 2 ^ 31)%Z.
Proof. intros. apply kid_bound. now apply prob_range. Qed.

Definition kn (i : nat) : R := IZR (kd i) * bw.
Lemma kn_lt i j : (i < j)%nat -> (j < n)%nat -> kn i < kn j.
Proof. intros H H0. apply Rmult_lt_compat_r; [apply bw_pos|]. apply IZR_lt. now apply kd_lt. Qed.
Lemma kn_le i j : (i <= j)%nat -> (j < n)%nat -> kn i <= kn j.
Proof. intros H H0. destruct (Nat.eq_dec i j) as [->|]; [lra|]. left. apply kn_lt; lia. Qed.

Lemma knotsTotal_ok : findKnotsTotal q l L = Ok (map kn (seq 0 n)).
Proof.
  unfold findKnotsTotal. apply mapM_ok. intros i Hi. apply in_seq in Hi. rewrite total_prob_eq.
  rewrite knot_id_ok by (apply prob_range; lia). reflexivity.
Qed.
Lemma knots_ok : find_knots q l L = Ok (map (fun j => kn (2 * j)) (seq 0 (2 ^ l))).
Proof.
  unfold find_knots. apply mapM_ok. intros j Hj. apply in_seq in Hj.
  assert (E : (2 * INR j + 1) / (2 * INR (2 ^ l)) = prob (2 * j)).
  { unfold prob, eps. rewrite Nat.add_1_r, pow2_INR, S_INR, mult_INR. simpl (INR 2). simpl (2 ^ S l). reflexivity. }
  rewrite E, knot_id_ok; [reflexivity|]. apply prob_range. unfold numKnots. rewrite Nat.add_1_r. cbn [Nat.pow]. lia.
Qed.

(** ** gridIds *)
Definition grid_inv (m : nat) (s : list nat * Z) : Prop :=
  match m with
  | O => s = ([], 0%Z)
  | S p => snd s = kd p /\ Z.of_nat (length (fst s)) = (kd p - kd 0)%Z /\
     forall t, (t < length (fst s))%nat -> exists i, nth_error (fst s) t = Some (S i) /\ (S i <= p)%nat /\
       (kd i - kd 0 <= Z.of_nat t < kd (S i) - kd 0)%Z
  end.
Lemma gridIds_ok : exists g, find_gridIds q l L = Ok g /\ Z.of_nat (length g) = (kd (n - 1) - kd 0)%Z /\
  forall t, (t < length g)%nat -> exists i, nth_error g t = Some (S i) /\ (S i < n)%nat /\
       (kd i - kd 0 <= Z.of_nat t < kd (S i) - kd 0)%Z.
Proof.
  unfold find_gridIds.
  assert (G : forall m r s, (m + r = n)%nat -> grid_inv m s -> exists s', foldM (fun s i =>
         id <- knot_id q L (total_prob l i) ;; Ok (fst s ++ repeat i (Z.to_nat (id - snd s)), id)) (seq m r) s = Ok s' /\ grid_inv n s').
  { intros m r. revert m. induction r as [|r IH]; intros m s E I; cbn [seq foldM].
    - exists s. split; auto. replace n with m by lia. auto.
    - rewrite total_prob_eq, knot_id_ok by (apply prob_range; lia). cbn [bind]. fold (kd m). apply IH; [lia|].
      destruct m as [|m]; cbn [grid_inv] in *.
      + subst s. cbn [fst snd]. replace (Z.to_nat (kd 0 - 0)) with 0%nat by (pose proof kd_first; lia).
        cbn. split; auto. split; [lia|]. intros t Ht. lia.
      + destruct I as (I1 & I2 & I3). cbn [fst snd]. split; auto. pose proof (kd_step m ltac:(lia)) as St.
        rewrite app_length, repeat_length. rewrite I1. split; [lia|].
        intros t Ht. destruct (lt_dec t (length (fst s))) as [Hlt|Hge].
        * destruct (I3 t Hlt) as (i & A & B & C). exists i. rewrite nth_error_app1 by auto. split; auto.
        * exists m. rewrite nth_error_app2 by lia. split; [apply nth_error_repeat; lia|]. split; [lia|]. lia. }
  destruct (G 0%nat n ([], 0%Z) eq_refl eq_refl) as (s & Es & Is). rewrite Es. cbn [bind]. exists (fst s). split; auto.
  pose proof (numKnots_pos l). destruct n as [|p] eqn:En; [lia|]. cbn [grid_inv] in Is. destruct Is as (_ & I2 & I3).
  replace (S p - 1)%nat with p by lia. split; auto.
  intros t Ht. destruct (I3 t Ht) as (i & A & B & C). exists i. repeat split; auto; lia.
Qed.

(** ** The number of knots up to x *)
Lemma filter_length_true {A} (f : A -> bool) (xs : list A) : (forall x, In x xs -> f x = true) -> length (filter f xs) = length xs.
Proof. induction xs; intros H; simpl; auto. rewrite (H a) by now left. simpl. f_equal. apply IHxs. intros; apply H; now right. Qed.
Lemma filter_length_false {A} (f : A -> bool) (xs : list A) : (forall x, In x xs -> f x = false) -> length (filter f xs) = 0%nat.
Proof. induction xs; intros H; simpl; auto. rewrite (H a) by now left. apply IHxs. intros; apply H; now right. Qed.
Definition count (x : R) : nat := count_upto (map kn (seq 0 n)) x.
Lemma count_is x i : (i <= n)%nat -> ((0 < i)%nat -> kn (i - 1) <= x) -> ((i < n)%nat -> x < kn i) -> count x = i.
Proof.
  intros Hi Hlo Hhi. unfold count, count_upto. replace n with (i + (n - i))%nat by lia.
  rewrite seq_app, map_app, filter_app, app_length.
  rewrite filter_length_true, filter_length_false.
  - rewrite map_length, seq_length. lia.
  - intros y Hy. apply in_map_iff in Hy. destruct Hy as (j & <- & Hj). apply in_seq in Hj.
    destruct (Rle_dec (kn j) x); auto. specialize (Hhi ltac:(lia)). pose proof (kn_le i j ltac:(lia) ltac:(lia)). lra.
  - intros y Hy. apply in_map_iff in Hy. destruct Hy as (j & <- & Hj). apply in_seq in Hj.
    destruct (Rle_dec (kn j) x) as [|N]; auto. specialize (Hlo ltac:(lia)). pose proof (kn_le j (i - 1) ltac:(lia) ltac:(lia)). lra.
Qed.
(** ... as an interval. *)
Lemma count_interval x : (count x <= n)%nat /\ ((0 < count x)%nat -> kn (count x - 1) <= x) /\ ((count x < n)%nat -> x < kn (count x)).
Proof.
  assert (E : exists i, (i <= n)%nat /\ ((0 < i)%nat -> kn (i - 1) <= x) /\ ((i < n)%nat -> x < kn i)).
  { assert (G : forall m, (m <= n)%nat -> (exists i, (i <= m)%nat /\ ((0 < i)%nat -> kn (i - 1) <= x) /\ ((i < m)%nat -> x < kn i))).
    { induction m as [|m IH]; intros Hm.
      - exists 0%nat. repeat split; intros; lia.
      - destruct (IH ltac:(lia)) as (i & A & B & C). destruct (Nat.eq_dec i m) as [->|].
        + destruct (Rlt_dec x (kn m)) as [Hx|Hx].
          * exists m. repeat split; auto.
          * exists (S m). split; [lia|]. split; intros; [|lia]. replace (S m - 1)%nat with m by lia. lra.
        + exists i. split; [lia|]. split; auto. intros. apply C. lia. }
    apply G. lia. }
  destruct E as (i & A & B & C). rewrite (count_is x i A B C). auto.
Qed.

Variable b : level_data.
Hypothesis Bl : ld_level b = l.
Hypothesis Bk : find_knots q l L = Ok (ld_knots b).
Hypothesis Bg : find_gridIds q l L = Ok (ld_gridIds b).
Hypothesis Bb : ld_bandwidth b = bw.

Lemma two_pow : (2 ^ (l + 1) - 1)%nat = n. Proof. reflexivity. Qed.
Lemma ld_knots_eq : ld_knots b = map (fun j => kn (2 * j)) (seq 0 (2 ^ l)).
Proof. rewrite knots_ok in Bk. now inversion Bk. Qed.
Lemma first_knot : vec_at (ld_knots b) 0 = Ok (kn 0).
Proof.
  rewrite ld_knots_eq. unfold vec_at. pose proof (pow2_ge1 l). destruct (2 ^ l)%nat; [lia|]. reflexivity.
Qed.
Lemma interval_main x : x - kn 0 < 2 ^ 32 * bw -> findIntervalId b x = Ok (if Rle_dec x (kn 0) then 0%nat else count x).
Proof.
  intros Hx. unfold findIntervalId. rewrite first_knot. cbn [bind]. pose proof bw_pos as Hb. pose proof (numKnots_pos l) as Hn.
  destruct (Rlt_dec (kn 0) x) as [H|H]; destruct (Rle_dec x (kn 0)) as [H'|H']; try lra; auto.
  rewrite Bb. set (v := (x - kn 0) / bw). assert (Ev : x = kn 0 + v * bw) by (unfold v; field; lra).
  assert (V0 : 0 < v) by (unfold v; apply Rdiv_lt_0_compat; lra).
  assert (V1 : v < 2 ^ 32) by (apply Rmult_lt_reg_r with bw; auto; lra).
  destruct (truncate_nonneg v ltac:(lra)) as [T1 T2]. unfold to_unsigned.
  replace ((0 <=? truncate v)%Z && (truncate v <? 2 ^ 32)%Z)%bool with true.
  2:{ symmetry. apply andb_true_intro. split; [now apply Z.leb_le|]. apply Z.ltb_lt. apply lt_IZR.
      replace (IZR (2 ^ 32)) with (2 ^ 32) by exact (pow_IZR 2 32). lra. }
  cbn [bind]. set (t := truncate v) in *.
  destruct gridIds_ok as (g & Eg & Gl & Gi). rewrite Bg in Eg. inversion Eg as [E]. rewrite E. clear Eg.
  assert (kx : forall i, kn i - kn 0 = IZR (kd i - kd 0) * bw) by (intros; unfold kn; rewrite minus_IZR; ring).
  destruct (Nat.ltb_spec (Z.to_nat t) (length g)) as [Ht|Ht].
  - destruct (Gi _ Ht) as (i & Hi & Hin & Hr). unfold vec_get. rewrite Hi. f_equal. symmetry. rewrite Z2Nat.id in Hr by auto.
    destruct Hr as [R1 R2]. apply IZR_le in R1. assert (R2' : (t + 1 <= kd (S i) - kd 0)%Z) by lia. apply IZR_le in R2'.
    rewrite plus_IZR in R2'. apply count_is; [lia| |].
    + intros _. replace (S i - 1)%nat with i by lia. specialize (kx i). nra.
    + intros _. specialize (kx (S i)). nra.
  - f_equal. rewrite Bl, two_pow. symmetry. apply count_is; [lia| |intros; lia].
    intros _. specialize (kx (n - 1)%nat). assert (Hz : (kd (n - 1) - kd 0 <= t)%Z) by lia. apply IZR_le in Hz. nra.
Qed.
End Level.
End Knots.
