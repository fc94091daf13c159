(** The constants for sqrt(pi) and log(sqrt(2 pi)), by series with rational terms. *)
From Coq Require Import Reals QArith Qreals Machin Lra Lia Arith.
From Verif Require Import Model.MultiNormal Model.Quadrature.
Local Open Scope R_scope.

(** * pi *)
Fixpoint qpow (x : Q) (n : nat) : Q := match n with O => 1%Q | S n' => (x * qpow x n')%Q end.
Lemma Q2R_qpow x n : Q2R (qpow x n) = Q2R x ^ n.
Proof.
  induction n as [|n IH]; [cbn; unfold Q2R; cbn; lra|]. cbn [qpow pow]. now rewrite Q2R_mult, IH.
Qed.
Definition qn (n : nat) : Q := inject_Z (Z.of_nat n).
Lemma Q2R_qn n : Q2R (qn n) = INR n.
Proof. unfold qn, Q2R. cbn [Qnum Qden inject_Z]. now rewrite INR_IZR_INZ, Rinv_1, Rmult_1_r. Qed.
Lemma qn_pos n : (0 < n)%nat -> ~ (qn n == 0)%Q.
Proof. intros H E. apply Qeq_eqR in E. rewrite Q2R_qn in E. unfold Q2R in E. cbn in E. apply lt_INR in H. cbn in H. lra. Qed.

Definition qterm (i : nat) : Q :=
  Qred (qpow (-1) i * (2 * (qpow (1 # 3) (2 * i + 1) / qn (2 * i + 1)) + qpow (1 # 7) (2 * i + 1) / qn (2 * i + 1)))%Q.
Lemma Q2R_qterm i : Q2R (qterm i) = tg_alt PI_2_3_7_tg i.
Proof.
  unfold qterm, tg_alt, PI_2_3_7_tg, Ratan_seq. rewrite (Qeq_eqR _ _ (Qred_correct _)).
  rewrite Q2R_mult, Q2R_plus, Q2R_mult, !Q2R_div by (apply qn_pos; lia). rewrite !Q2R_qpow, Q2R_qn.
  replace (Q2R (-1)) with (-1) by (unfold Q2R; cbn; lra). replace (Q2R 2) with 2 by (unfold Q2R; cbn; lra).
  replace (Q2R (1 # 3)) with (/ 3) by (unfold Q2R; cbn; lra). replace (Q2R (1 # 7)) with (/ 7) by (unfold Q2R; cbn; lra). reflexivity.
Qed.
Fixpoint qsum (n : nat) : Q := match n with O => qterm 0 | S n' => Qred (qsum n' + qterm n)%Q end.
Lemma Q2R_qsum n : Q2R (qsum n) = sum_f_R0 (tg_alt PI_2_3_7_tg) n.
Proof.
  induction n as [|n IH]; [apply Q2R_qterm|]. cbn [qsum sum_f_R0]. now rewrite (Qeq_eqR _ _ (Qred_correct _)), Q2R_plus, IH, Q2R_qterm.
Qed.
Definition pi_low : Q := 314159265358979323846 # 100000000000000000000.
Definition pi_high : Q := 314159265358979323847 # 100000000000000000000.
Lemma pi_bounds : Q2R pi_low < PI < Q2R pi_high.
Proof.
  destruct (PI_2_3_7_ineq 21) as [L U]. rewrite <- !Q2R_qsum in *.
  assert (A : Q2R pi_low < Q2R (4 * qsum (S (2 * 21)))) by (apply Qlt_Rlt; vm_compute; reflexivity).
  assert (B : Q2R (4 * qsum (2 * 21)) < Q2R pi_high) by (apply Qlt_Rlt; vm_compute; reflexivity).
  rewrite Q2R_mult in A, B. replace (Q2R 4) with 4 in * by (unfold Q2R; cbn; lra). lra.
Qed.

(** * exp *)
Fixpoint taylor (n : nat) (x : R) : R := match n with O => 1 | S n' => taylor n' x + x ^ n / INR (fact n) end.
Lemma taylor_deriv n x : derivable_pt_lim (taylor (S n)) x (taylor n x).
Proof.
  induction n as [|n IH].
  - change (derivable_pt_lim (fun y => 1 + y ^ 1 / INR (fact 1)) x 1).
    apply (derivable_pt_lim_ext (fun y => 1 + y)). { intros y. cbn. field. }
    pose proof (derivable_pt_lim_plus (fun _ => 1) (fun y => y) x 0 1 (derivable_pt_lim_const 1 x) (derivable_pt_lim_id x)) as H. rewrite Rplus_0_l in H. exact H.
  - change (derivable_pt_lim (fun y => taylor (S n) y + y ^ S (S n) / INR (fact (S (S n)))) x (taylor n x + x ^ S n / INR (fact (S n)))).
    apply (derivable_pt_lim_plus (taylor (S n)) (fun y => y ^ S (S n) / INR (fact (S (S n))))); [exact IH|].
    replace (x ^ S n / INR (fact (S n))) with (INR (S (S n)) * x ^ pred (S (S n)) * / INR (fact (S (S n)))).
    + apply (derivable_pt_lim_ext (fun y => / INR (fact (S (S n))) * y ^ S (S n))). { intros y. unfold Rdiv. ring. }
      rewrite Rmult_comm. apply (derivable_pt_lim_scal (fun y => y ^ S (S n))). apply derivable_pt_lim_pow.
    + cbn [pred]. rewrite (fact_simpl (S n)), mult_INR. field. split; [apply INR_fact_neq_0|]. apply not_0_INR. lia.
Qed.
Lemma above_zero (f f' : R -> R) : (forall x, derivable_pt_lim f x (f' x)) -> (forall x, 0 <= x -> 0 <= f' x) -> 0 <= f 0 -> forall x, 0 <= x -> 0 <= f x.
Proof.
  intros D P Z x Hx. destruct (Req_dec x 0) as [->|N]; [exact Z|].
  destruct (MVT_cor2 f f' 0 x) as (c & E & Hc); [lra|intros; apply D|]. assert (0 <= f' c) by (apply P; lra). nra.
Qed.
Lemma taylor_0 n : taylor n 0 = 1.
Proof. induction n as [|n IH]; [reflexivity|]. cbn [taylor]. rewrite IH, pow_i by lia. unfold Rdiv. ring. Qed.
Lemma taylor_below n : forall x, 0 <= x -> taylor n x <= exp x.
Proof.
  induction n as [|n IH].
  - intros x Hx. cbn. rewrite <- exp_0. destruct (Req_dec x 0) as [->|N]; [lra|]. left. apply exp_increasing. lra.
  - intros x Hx. enough (0 <= exp x - taylor (S n) x) by lra.
    apply (above_zero (fun y => exp y - taylor (S n) y) (fun y => exp y - taylor n y)); [| | |exact Hx].
    + intros y. apply (derivable_pt_lim_minus exp (taylor (S n))); [apply derivable_pt_lim_exp|apply taylor_deriv].
    + intros y Hy. specialize (IH y Hy). lra.
    + rewrite exp_0, taylor_0. lra.
Qed.
Lemma taylor_above n : forall x, 0 <= x -> exp x * (1 - x ^ S n / INR (fact (S n))) <= taylor n x.
Proof.
  induction n as [|n IH].
  - intros x Hx. cbn [taylor]. replace (x ^ 1 / INR (fact 1)) with x by (cbn; field).
    enough (0 <= 1 - exp x * (1 - x)) by lra.
    apply (above_zero (fun y => 1 - exp y * (1 - y)) (fun y => 0 - (exp y * (1 - y) + exp y * (0 - 1)))); [| | |exact Hx].
    + intros y. apply (derivable_pt_lim_minus (fun _ => 1) (fun y => exp y * (1 - y))); [apply derivable_pt_lim_const|].
      apply (derivable_pt_lim_mult exp (fun y => 1 - y)); [apply derivable_pt_lim_exp|].
      apply (derivable_pt_lim_minus (fun _ => 1) (fun y => y)); [apply derivable_pt_lim_const|apply derivable_pt_lim_id].
    + intros y Hy. pose proof (exp_pos y). nra.
    + rewrite exp_0. lra.
  - intros x Hx. set (N := S (S n)). set (a := / INR (fact N)). enough (0 <= taylor (S n) x - exp x * (1 - a * x ^ N)) by (unfold Rdiv, a in *; lra).
    apply (above_zero (fun y => taylor (S n) y - exp y * (1 - a * y ^ N))
      (fun y => taylor n y - (exp y * (1 - a * y ^ N) + exp y * (0 - a * (INR N * y ^ pred N))))); [| | |exact Hx].
    + intros y. apply (derivable_pt_lim_minus (taylor (S n)) (fun y => exp y * (1 - a * y ^ N))); [apply taylor_deriv|]. apply (derivable_pt_lim_mult exp (fun y => 1 - a * y ^ N)); [apply derivable_pt_lim_exp|].
      apply (derivable_pt_lim_minus (fun _ => 1) (fun y => a * y ^ N)); [apply derivable_pt_lim_const|]. apply (derivable_pt_lim_scal (fun y => y ^ N)), derivable_pt_lim_pow.
    + intros y Hy. specialize (IH y Hy).
      assert (E : a * (INR N * y ^ pred N) = y ^ S n / INR (fact (S n))).
      { unfold a, N. cbn [pred]. rewrite (fact_simpl (S n)), mult_INR. field. split; [apply INR_fact_neq_0|]. apply not_0_INR. lia. }
      rewrite E. assert (0 <= a * y ^ N). { apply Rmult_le_pos; [left; apply Rinv_0_lt_compat, INR_fact_lt_0|now apply pow_le]. }
      pose proof (exp_pos y). nra.
    + rewrite exp_0, taylor_0. unfold N. rewrite pow_i by lia. lra.
Qed.

(** Sum, last term and common denominator for x = p / q. *)
Fixpoint ztaylor (n : nat) (p q : Z) : Z * Z * Z :=
  match n with
  | O => (1, 1, 1)%Z
  | S n' => let '(s, t, d) := ztaylor n' p q in let m := (q * Z.of_nat n)%Z in (s * m + t * p, t * p, d * m)%Z
  end.
Lemma ztaylor_spec n p q : (0 < q)%Z -> let '(s, t, d) := ztaylor n p q in
  (0 < d)%Z /\ IZR s / IZR d = taylor n (IZR p / IZR q) /\ IZR t / IZR d = (IZR p / IZR q) ^ n / INR (fact n).
Proof.
  intros Hq. apply IZR_lt in Hq as Hq'. induction n as [|n IH].
  - cbn [ztaylor taylor pow fact]. split; [lia|]. change (INR 1) with 1. lra.
  - cbn [ztaylor]. destruct (ztaylor n p q) as [[s t] d]. destruct IH as (D & Sm & T). apply IZR_lt in D as D'.
    assert (N : 0 < INR (S n)) by (apply lt_0_INR; lia). pose proof (INR_fact_lt_0 n) as F.
    assert (T' : IZR (t * p) / IZR (d * (q * Z.of_nat (S n))) = (IZR p / IZR q) ^ S n / INR (fact (S n))).
    { rewrite !mult_IZR, <- INR_IZR_INZ, fact_simpl, mult_INR. cbn [pow].
      replace ((IZR p / IZR q) * (IZR p / IZR q) ^ n / (INR (S n) * INR (fact n))) with ((IZR p / IZR q) / INR (S n) * ((IZR p / IZR q) ^ n / INR (fact n))) by (field; lra).
      rewrite <- T. field. lra. }
    split; [nia|]. split; [|exact T'].
    cbn [taylor]. rewrite <- T', <- Sm. rewrite plus_IZR, !mult_IZR, <- INR_IZR_INZ. field. lra.
Qed.

(** * The constants *)
Definition log_low : Z * Z := (183787706640934547908, 100000000000000000000)%Z.
Definition log_high : Z * Z := (183787706640934549908, 100000000000000000000)%Z.
Lemma exp_low : exp (IZR (fst log_low) / IZR (snd log_low)) < 2 * PI.
Proof.
  pose proof (taylor_above 25 (IZR (fst log_low) / IZR (snd log_low))) as T. pose proof (ztaylor_spec 25 (fst log_low) (snd log_low) eq_refl) as Z1. pose proof (ztaylor_spec 26 (fst log_low) (snd log_low) eq_refl) as Z2.
  set (x := IZR (fst log_low) / IZR (snd log_low)) in *. assert (0 <= x) as P by (unfold x, log_low; cbn [fst snd]; lra). specialize (T P).
  assert (C : let '(s, t, d) := ztaylor 25 (fst log_low) (snd log_low) in let '(s', t', d') := ztaylor 26 (fst log_low) (snd log_low) in
     (t' < d' /\ s * d' * 100000000000000000000 < d * 2 * 314159265358979323846 * (d' - t'))%Z) by (vm_compute; split; reflexivity).
  destruct (ztaylor 25 (fst log_low) (snd log_low)) as [[s t] d]. destruct (ztaylor 26 (fst log_low) (snd log_low)) as [[s' t'] d'].
  destruct Z1 as (D & S & _). destruct Z2 as (D' & _ & T'). rewrite <- S, <- T' in T. destruct C as [C1 C2].
  apply IZR_lt in D, D', C1, C2. rewrite !mult_IZR, minus_IZR in C2. pose proof (proj1 pi_bounds) as L. unfold Q2R, pi_low in L. cbn [Qnum Qden] in L.
  set (a := 1 - IZR t' / IZR d') in *. assert (A : a * IZR d' = IZR d' - IZR t') by (unfold a; field; lra).
  assert (Pa : 0 < a) by (apply Rmult_lt_reg_r with (IZR d'); lra).
  rewrite <- A in C2. assert (C3 : IZR s / IZR d < 2 * (314159265358979323846 / 100000000000000000000) * a).
  { apply Rmult_lt_reg_r with (IZR d); [lra|]. replace (IZR s / IZR d * IZR d) with (IZR s) by (field; lra). apply Rmult_lt_reg_r with (IZR d'); lra. }
  assert (exp x < 2 * (314159265358979323846 / 100000000000000000000)) by (apply Rmult_lt_reg_r with a; lra). lra.
Qed.
Lemma exp_high : 2 * PI < exp (IZR (fst log_high) / IZR (snd log_high)).
Proof.
  pose proof (taylor_below 25 (IZR (fst log_high) / IZR (snd log_high))) as T. pose proof (ztaylor_spec 25 (fst log_high) (snd log_high) eq_refl) as Z1.
  set (x := IZR (fst log_high) / IZR (snd log_high)) in *. assert (0 <= x) as P by (unfold x, log_high; cbn [fst snd]; lra). specialize (T P).
  assert (C : let '(s, t, d) := ztaylor 25 (fst log_high) (snd log_high) in
     (2 * 314159265358979323847 * d < s * 100000000000000000000)%Z) by (vm_compute; reflexivity).
  destruct (ztaylor 25 (fst log_high) (snd log_high)) as [[s t] d].
  destruct Z1 as (D & S & _). rewrite <- S in T. apply IZR_lt in D, C. rewrite !mult_IZR in C. pose proof (proj2 pi_bounds) as L. unfold Q2R, pi_high in L. cbn [Qnum Qden] in L.
  assert (C3 : 2 * (314159265358979323847 / 100000000000000000000) < IZR s / IZR d).
  { apply Rmult_lt_reg_r with (IZR d); [lra|]. replace (IZR s / IZR d * IZR d) with (IZR s) by (field; lra). lra. }
  lra.
Qed.
Lemma log_constant : 7 / 10 ^ 17 < ln (sqrt (2 * PI)) - logSqrtTwoPi < 8 / 10 ^ 17.
Proof.
  pose proof PI_RGT_0 as P. assert (E : ln (sqrt (2 * PI)) = ln (2 * PI) / 2).
  { assert (0 < sqrt (2 * PI)) by (apply sqrt_lt_R0; lra). rewrite <- (sqrt_sqrt (2 * PI)) at 2 by lra. rewrite ln_mult by assumption. lra. }
  rewrite E. assert (L : IZR (fst log_low) / IZR (snd log_low) < ln (2 * PI)) by (rewrite <- (ln_exp (IZR (fst log_low) / IZR (snd log_low))); apply ln_increasing; [apply exp_pos|apply exp_low]).
  assert (U : ln (2 * PI) < IZR (fst log_high) / IZR (snd log_high)) by (rewrite <- (ln_exp (IZR (fst log_high) / IZR (snd log_high))); apply ln_increasing; [lra|apply exp_high]).
  unfold log_low, log_high in L, U. cbn [fst snd] in L, U. unfold logSqrtTwoPi. cbn [pow]. lra.
Qed.
Lemma sqrt_constant : 5 / 10 ^ 11 < sqrtPi / sqrt PI - 1 < 6 / 10 ^ 11.
Proof.
  pose proof pi_bounds as [L U]. unfold Q2R, pi_low, pi_high in L, U. cbn [Qnum Qden] in L, U.
  assert (P : 0 < sqrt PI) by (apply sqrt_lt_R0, PI_RGT_0).
  assert (B : 177245385090551 / 100000000000000 < sqrt PI < 177245385090552 / 100000000000000).
  { split.
    - apply Rsqr_incrst_0; [|lra|lra]. rewrite Rsqr_sqrt by lra. unfold Rsqr. lra.
    - apply Rsqr_incrst_0; [|lra|lra]. rewrite Rsqr_sqrt by lra. unfold Rsqr. lra. }
  set (s := sqrt PI) in *. assert (E : sqrtPi / s - 1 = (sqrtPi - s) / s) by (field; lra). rewrite E.
  split; [apply Rmult_lt_reg_r with s; [lra|]|apply Rmult_lt_reg_r with s; [lra|]]; replace ((sqrtPi - s) / s * s) with (sqrtPi - s) by (field; lra); unfold sqrtPi; cbn [pow]; lra.
Qed.
