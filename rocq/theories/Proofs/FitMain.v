(** C60-C62: optimizing and reporting. *)
From Coq Require Import String List ZArith Bool Arith Lia Reals Lra.
From Coquelicot Require Import Coquelicot.
From Verif Require Import Model.Base Model.Family Model.GLMM Model.SplitFrame Model.Vectors Model.Frames Model.LfunSR Model.Fit
  Spec.Numbers Spec.GLMMSpec Spec.MatrixSpec Spec.FramesSpec Spec.FitSpec Proofs.ListLemmas Proofs.GLMMLemmas Proofs.SumLemmas Proofs.BasisMain Proofs.MessageLemmas.
Import ListNotations.
Local Open Scope R_scope.
Notation length := List.length.

(** * Sums with recycling *)
Lemma recycled_len x y n : length x = n -> length y = n -> length (recycled_sum x y) = n.
Proof.
  intros Hx Hy. unfold recycled_sum. destruct x as [|a x], y as [|b y]; cbn in Hx, Hy; subst n; try discriminate; auto.
  rewrite map_length, seq_length. cbn. injection Hy as ->. now rewrite Nat.max_id.
Qed.
Lemma recycled_nth x y n i : length x = n -> length y = n -> (i < n)%nat ->
  nth i (recycled_sum x y) 0 = nth i x 0 + nth i y 0.
Proof.
  intros Hx Hy Hi. unfold recycled_sum. destruct x as [|a x], y as [|b y]; cbn in Hx, Hy; try (subst n; lia); try lia.
  set (u := a :: x) in *. set (v := b :: y) in *. assert (Lu : length u = n) by (unfold u; cbn; lia). assert (Lv : length v = n) by (unfold v; cbn; lia).
  rewrite Lu, Lv, Nat.max_id.
  rewrite (nth_indep _ 0 (nth (0 mod n) u 0 + nth (0 mod n) v 0)) by (rewrite map_length, seq_length; exact Hi).
  rewrite (map_nth (fun i => nth (i mod n) u 0 + nth (i mod n) v 0)), seq_nth by exact Hi. cbn [plus]. now rewrite Nat.mod_small.
Qed.
Lemma recycled_zero n y : length y = n -> recycled_sum (repeat 0 n) y = y.
Proof.
  intros Hy. apply (nth_ext _ _ 0 0).
  - rewrite (recycled_len _ _ n); auto. apply repeat_length.
  - intros i Hi. rewrite (recycled_len _ _ n) in Hi; auto; [|apply repeat_length].
    rewrite (recycled_nth _ _ n); auto; [|apply repeat_length]. rewrite nth_repeat. ring.
Qed.

Lemma nth_firstn_lt {A} (l : list A) d : forall n i, (i < n)%nat -> nth i (firstn n l) d = nth i l d.
Proof.
  induction l as [|x l IH]; intros n i Hi; [now rewrite firstn_nil|].
  destruct n; [lia|]. destruct i; cbn; auto. apply IH. lia.
Qed.
Lemma nth_skipn_add {A} (l : list A) d : forall n i, nth i (skipn n l) d = nth (n + i) l d.
Proof.
  induction l as [|x l IH]; intros n i; [rewrite skipn_nil; now destruct i, n|].
  destruct n; cbn; auto.
Qed.

(** * The box *)
Lemma outside_false p_theta x : (1 <= p_theta <= length x)%nat -> (outside p_theta x = Ok false <-> in_box p_theta x) /\
  (outside p_theta x = Ok true <-> ~ in_box p_theta x).
Proof.
  intros Hp. unfold outside, leading. rewrite Nat.max_r by lia.
  destruct (existsb _ (firstn p_theta x)) eqn:E.
  - assert (N : ~ in_box p_theta x).
    { apply existsb_exists in E. destruct E as (v & Hv & E). intros B. unfold Rltb in E. destruct (Rlt_dec 5 (Rabs v)) as [G|]; [|discriminate].
      apply (In_nth _ _ 0) in Hv. destruct Hv as (i & Hi & <-). rewrite firstn_length in Hi. rewrite nth_firstn_lt in G by lia.
      specialize (B i ltac:(lia)). lra. }
    split; split; intros H; try discriminate; try tauto; auto.
  - assert (B : in_box p_theta x).
    { intros i Hi. apply Rnot_lt_le. intros G. assert (T : existsb (fun x => Rltb 5 (Rabs x)) (firstn p_theta x) = true); [|congruence].
      apply existsb_exists. exists (nth i x 0). split.
      - rewrite <- (nth_firstn_lt x 0 p_theta i Hi). apply nth_In. rewrite firstn_length. lia.
      - unfold Rltb. destruct (Rlt_dec 5 (Rabs (nth i x 0))); [reflexivity|contradiction]. }
    destruct (Nat.ltb_spec (length x) p_theta); [lia|]. split; split; intros H0; try discriminate; try tauto; auto.
Qed.

Section Opt.
Context (optim : (list R -> outcome dev) -> list R -> outcome (list R * list (list R))).
Context (solve : list (list R) -> outcome (list (list R))).

Lemma start_length p_theta p_beta prev : (forall x, prev = Some x -> length x = (p_theta + p_beta)%nat) ->
  length (starting_values p_theta p_beta prev) = (p_theta + p_beta)%nat.
Proof. intros H. destruct prev as [x|]; cbn; auto. now rewrite app_length, !repeat_length. Qed.

Lemma std_zero lfun p_theta mu n stop big : length mu = n -> devfun_std lfun p_theta mu (repeat 0 n) stop big = devfun_ext lfun p_theta mu stop big.
Proof. intros H. unfold devfun_std. now rewrite recycled_zero. Qed.

Lemma C60_estimate_main : descends optim -> forall lfun p_beta p_theta prev e Sigma, (1 <= p_theta)%nat ->
  (forall x, prev = Some x -> length x = (p_theta + p_beta)%nat) ->
  optimize_glmm optim solve lfun p_beta p_theta prev = Ok (e, Sigma) ->
  forall start, start = match prev with Some x => x | None => repeat (1 / 2) p_theta ++ repeat 0 p_beta end ->
  length e = (p_theta + p_beta)%nat /\ in_box p_theta start /\ in_box p_theta e /\
  exists l0 l, lfun start = Ok l0 /\ lfun e = Ok l /\ l0 <= l.
Proof.
  intros HD lfun p_beta p_theta prev e Sigma Hp Hprev H start ->. unfold optimize_glmm in H.
  set (p := (p_theta + p_beta)%nat) in *. change (match prev with Some x => x | None => repeat (1 / 2) p_theta ++ repeat 0 p_beta end) with (starting_values p_theta p_beta prev).
  assert (Lm := start_length p_theta p_beta prev Hprev). set (mu := starting_values p_theta p_beta prev) in *. fold p in Lm.
  rewrite std_zero in H by exact Lm. apply bind_Ok in H. destruct H as (d0 & Hd0 & H). apply bind_Ok in H. destruct H as ([x hess] & Hx & H).
  apply bind_Ok in H. destruct H as (inv & Hinv & H). injection H as <- <-.
  destruct (HD _ _ _ _ Hx) as (Lx & v0 & v & F0 & F & Hle). rewrite repeat_length in Lx. rewrite std_zero in F0 by exact Lm. unfold devfun_std in F.
  assert (Le : length (recycled_sum x mu) = p) by (apply recycled_len; auto). set (e := recycled_sum x mu) in *.
  destruct (outside_false p_theta mu) as [M0 M1]; [lia|]. destruct (outside_false p_theta e) as [E0 E1]; [lia|].
  unfold devfun_ext in *. destruct (outside p_theta mu) as [[|]| | |]; try discriminate; cbn [bind] in *.
  - injection Hd0 as <-. discriminate.
  - destruct (lfun mu) as [l0| | |] eqn:L0; try discriminate. injection Hd0 as <-. injection F0 as <-. cbn [dev_plus] in F.
    destruct (outside p_theta e) as [[|]| | |]; try discriminate; cbn [bind] in *.
    + injection F as <-. lra.
    + destruct (lfun e) as [l| | |] eqn:L; try discriminate. injection F as <-.
      split; [exact Le|]. split; [now apply M0|]. split; [now apply E0|]. exists l0, l. repeat split; auto. lra.
Qed.

Lemma C60_fails_main : descends optim -> forall lfun p_beta p_theta prev start, (1 <= p_theta)%nat ->
  (forall x, prev = Some x -> length x = (p_theta + p_beta)%nat) ->
  start = match prev with Some x => x | None => repeat (1 / 2) p_theta ++ repeat 0 p_beta end ->
  (in_box p_theta start -> forall err, lfun start = Throw err -> optimize_glmm optim solve lfun p_beta p_theta prev = Throw err) /\
  (~ in_box p_theta start -> forall r, optimize_glmm optim solve lfun p_beta p_theta prev <> Ok r).
Proof.
  intros HD lfun p_beta p_theta prev start Hp Hprev ->.
  change (match prev with Some x => x | None => repeat (1 / 2) p_theta ++ repeat 0 p_beta end) with (starting_values p_theta p_beta prev).
  assert (Lm := start_length p_theta p_beta prev Hprev).
  destruct (outside_false p_theta (starting_values p_theta p_beta prev)) as [M0 M1]; [lia|]. split.
  - intros B err Herr. unfold optimize_glmm. rewrite std_zero by exact Lm. unfold devfun_ext. rewrite (proj2 M0 B). cbn [bind]. rewrite Herr. reflexivity.
  - intros NB [e S] H. apply (C60_estimate_main HD lfun p_beta p_theta prev e S Hp Hprev) with (start := starting_values p_theta p_beta prev) in H; [|reflexivity]. tauto.
Qed.
End Opt.

(** * Hessians under changes of sign and location *)
Lemma at_i_length y i t : (i < length y)%nat -> length (at_i y i t) = length y.
Proof. intros H. unfold at_i. rewrite app_length, firstn_length. cbn [length]. rewrite skipn_length. lia. Qed.
Lemma at_i_nth y i t k : (i < length y)%nat -> nth k (at_i y i t) 0 = if Nat.eqb k i then t else nth k y 0.
Proof.
  intros H. unfold at_i. destruct (Nat.eqb_spec k i) as [->|N].
  - rewrite app_nth2; rewrite firstn_length, Nat.min_l by lia; [|lia]. now rewrite Nat.sub_diag.
  - destruct (Nat.lt_ge_cases k i).
    + rewrite app_nth1 by (rewrite firstn_length; lia). now apply nth_firstn_lt.
    + rewrite app_nth2; rewrite firstn_length, Nat.min_l by lia; [|lia].
      destruct (k - i)%nat as [|m] eqn:E; [lia|]. cbn [nth]. rewrite nth_skipn_add. f_equal. lia.
Qed.
Lemma vec_ext (x y : list R) p : length x = p -> length y = p -> (forall k, (k < p)%nat -> nth k x 0 = nth k y 0) -> x = y.
Proof. intros Hx Hy H. apply (nth_ext _ _ 0 0); [lia|]. intros k Hk. apply H. lia. Qed.

Lemma hessian_ext p f g x H : (forall y, length y = p -> f y = g y) -> hessian p f x H -> hessian p g x H.
Proof.
  intros E (Lx & Sq & d & eps & He & H1 & H2). split; [exact Lx|]. split; [exact Sq|]. exists d, eps. split; [exact He|]. split; [|exact H2].
  intros i y Hi Ly Hy. apply (is_derive_ext (fun t => f (at_i y i t))); [|now apply H1].
  intros t. apply E. rewrite at_i_length; lia.
Qed.

Lemma sign_sq s : sign s -> s * s = 1.
Proof. intros [->| ->]; ring. Qed.
Lemma sign_abs s x : sign s -> Rabs (s * x) = Rabs x.
Proof. intros [->| ->]; [now rewrite Rmult_1_l|]. replace (-1 * x) with (- x) by ring. apply Rabs_Ropp. Qed.

Lemma hessian_affine p f (a b : nat -> R) (T : list R -> list R) x H H' :
  (forall i, (i < p)%nat -> sign (a i)) ->
  (forall y, length y = p -> length (T y) = p /\ forall i, (i < p)%nat -> nth i (T y) 0 = a i * nth i y 0 + b i) ->
  hessian p (fun y => f (T y)) x H -> square p H' ->
  (forall i j, (i < p)%nat -> (j < p)%nat -> entry H' i j = a i * a j * entry H i j) ->
  hessian p f (T x) H'.
Proof.
  intros Ha HT (Lx & Sq & g & eps & He & H1 & H2) Sq' HH.
  split; [now apply HT|]. split; [exact Sq'|].
  set (Ti := fun z : list R => map (fun i => a i * (nth i z 0 - b i)) (seq 0 p)).
  assert (LTi : forall z, length (Ti z) = p) by (intros z; unfold Ti; now rewrite map_length, seq_length).
  assert (NTi : forall z i, (i < p)%nat -> nth i (Ti z) 0 = a i * (nth i z 0 - b i)).
  { intros z i Hi. unfold Ti. rewrite (nth_indep _ 0 (a 0%nat * (nth 0 z 0 - b 0%nat))) by (rewrite map_length, seq_length; exact Hi).
    rewrite (map_nth (fun i => a i * (nth i z 0 - b i))), seq_nth by exact Hi. reflexivity. }
  assert (TT : forall z i t, (i < p)%nat -> length z = p -> T (at_i (Ti z) i (a i * (t - b i))) = at_i z i t).
  { intros z i t Hi Lz. assert (L1 : length (at_i (Ti z) i (a i * (t - b i))) = p) by (rewrite at_i_length; rewrite LTi; lia).
    destruct (HT _ L1) as [L2 N2]. apply (vec_ext _ _ p); [exact L2|rewrite at_i_length; lia|].
    intros k Hk. rewrite N2 by exact Hk. rewrite !at_i_nth by (rewrite ?LTi; lia). pose proof (sign_sq _ (Ha k Hk)) as Q.
    destruct (Nat.eqb_spec k i) as [->|N].
    - rewrite <- Rmult_assoc, Q. ring.
    - rewrite NTi by exact Hk. rewrite <- Rmult_assoc, Q. ring. }
  exists (fun i z => a i * g i (Ti z)), eps. split; [exact He|]. split.
  - intros i z Hi Lz Hz. apply (is_derive_ext (fun t => f (T (at_i (Ti z) i (a i * (t - b i)))))); [intros t; now rewrite TT|].
    evar_last; [apply (is_derive_comp (fun u => f (T (at_i (Ti z) i u))) (fun t => a i * (t - b i)) (nth i z 0) (g i (Ti z)) (a i))|].
    + rewrite <- NTi by exact Hi. apply (H1 i (Ti z) Hi (LTi z)).
      intros k Hk. rewrite NTi by exact Hk. destruct (HT x Lx) as [_ N]. specialize (Hz k Hk). rewrite N in Hz by exact Hk.
      rewrite <- (sign_abs (a k)) by (now apply Ha). replace (a k * (a k * (nth k z 0 - b k) - nth k x 0)) with (a k * a k * (nth k z 0 - b k) - a k * nth k x 0) by ring.
      rewrite sign_sq by (now apply Ha). replace (1 * (nth k z 0 - b k) - a k * nth k x 0) with (nth k z 0 - (a k * nth k x 0 + b k)) by ring. exact Hz.
    + auto_derive; [exact I|]. ring.
    + reflexivity.
  - intros i j Hi Hj. destruct (HT x Lx) as [LT N].
    assert (Tix : Ti (T x) = x).
    { apply (vec_ext _ _ p); auto. intros k Hk. rewrite NTi, N by exact Hk. replace (a k * (a k * nth k x 0 + b k - b k)) with (a k * a k * nth k x 0) by ring.
      rewrite sign_sq by (now apply Ha). ring. }
    apply (is_derive_ext (fun t => a i * g i (at_i x j (a j * (t - b j))))).
    { intros t. do 2 f_equal. symmetry. apply (vec_ext _ _ p); [apply LTi|rewrite at_i_length; lia|].
      intros k Hk. rewrite NTi by exact Hk. rewrite !at_i_nth by lia. destruct (Nat.eqb_spec k j) as [->|]; [reflexivity|].
      rewrite <- Tix at 2. now rewrite NTi. }
    rewrite HH by assumption.
    evar_last; [apply (is_derive_scal (fun t => g i (at_i x j (a j * (t - b j)))) (nth j (T x) 0) (a i) (a j * entry H i j))|].
    + evar_last; [apply (is_derive_comp (fun u => g i (at_i x j u)) (fun t => a j * (t - b j)) (nth j (T x) 0) (entry H i j) (a j))|].
      * replace (a j * (nth j (T x) 0 - b j)) with (nth j x 0); [now apply H2|]. rewrite N by exact Hj.
        replace (a j * (a j * nth j x 0 + b j - b j)) with (a j * a j * nth j x 0) by ring. rewrite sign_sq by (now apply Ha). ring.
      * auto_derive; [exact I|]. ring.
      * reflexivity.
    + unfold scal; cbn; unfold mult; cbn. ring.
Qed.

Lemma hessian_unique p f x H1 H2 : hessian p f x H1 -> hessian p f x H2 -> H1 = H2.
Proof.
  intros (Lx & S1 & g1 & e1 & P1 & A1 & B1) (_ & S2 & g2 & e2 & P2 & A2 & B2).
  apply (list_entries p); auto. intros i j Hi Hj.
  rewrite <- (is_derive_unique _ _ _ (B1 i j Hi Hj)). apply is_derive_unique.
  apply (is_derive_ext_loc (fun t => g2 i (at_i x j t))); [|now apply B2].
  assert (Pm : 0 < Rmin e1 e2) by (now apply Rmin_glb_lt). exists (mkposreal _ Pm). intros t Ht. cbn in Ht. unfold ball in Ht; cbn in Ht; unfold AbsRing_ball, abs, minus, plus, opp in Ht; cbn in Ht.
  assert (N : forall k, (k < p)%nat -> Rabs (nth k (at_i x j t) 0 - nth k x 0) < Rmin e1 e2).
  { intros k Hk. rewrite at_i_nth by lia. destruct (Nat.eqb_spec k j) as [->|].
    - exact Ht.
    - replace (nth k x 0 - nth k x 0) with 0 by ring. rewrite Rabs_R0. exact Pm. }
  assert (L : length (at_i x j t) = p) by (rewrite at_i_length; lia).
  rewrite <- (is_derive_unique _ _ _ (A1 i (at_i x j t) Hi L (fun k Hk => Rlt_le_trans _ _ _ (N k Hk) (Rmin_l _ _)))).
  symmetry. apply is_derive_unique. apply A2; auto. intros k Hk. exact (Rlt_le_trans _ _ _ (N k Hk) (Rmin_r _ _)).
Qed.

(** * The matrix with the signs changed *)
Definition signed (p : nat) (s : nat -> R) (M : list (list R)) : list (list R) :=
  map (fun i => map (fun j => s i * s j * entry M i j) (seq 0 p)) (seq 0 p).
Lemma signed_row p s M i : (i < p)%nat -> nth i (signed p s M) [] = map (fun j => s i * s j * entry M i j) (seq 0 p).
Proof.
  intros Hi. unfold signed. rewrite (nth_indep _ [] (map (fun j => s 0%nat * s j * entry M 0 j) (seq 0 p))) by (rewrite map_length, seq_length; exact Hi).
  rewrite (map_nth (fun i => map (fun j => s i * s j * entry M i j) (seq 0 p))), seq_nth by exact Hi. reflexivity.
Qed.
Lemma signed_square p s M : square p (signed p s M).
Proof. split; [unfold signed; now rewrite map_length, seq_length|]. intros i Hi. rewrite signed_row by exact Hi. now rewrite map_length, seq_length. Qed.
Lemma signed_entry p s M i j : (i < p)%nat -> (j < p)%nat -> entry (signed p s M) i j = s i * s j * entry M i j.
Proof.
  intros Hi Hj. unfold entry at 1. rewrite signed_row by exact Hi.
  rewrite (nth_indep _ 0 (s i * s 0%nat * entry M i 0)) by (rewrite map_length, seq_length; exact Hj).
  rewrite (map_nth (fun j => s i * s j * entry M i j)), seq_nth by exact Hj. reflexivity.
Qed.
Lemma signed_inverse p s H S : (forall i, (i < p)%nat -> sign (s i)) -> are_inverse p H S -> are_inverse p (signed p s H) (signed p s S).
Proof.
  intros Hs (_ & _ & HI). split; [apply signed_square|]. split; [apply signed_square|].
  assert (G : forall A B i j, (i < p)%nat -> (j < p)%nat -> row_col p A B i j = unit_entry i j -> row_col p (signed p s A) (signed p s B) i j = unit_entry i j).
  { intros A B i j Hi Hj E. unfold row_col. transitivity (s i * s j * row_col p A B i j).
    - unfold row_col. rewrite <- sumR_scal. apply sumR_ext. intros k Hk. rewrite !signed_entry by assumption.
      replace (s i * s k * entry A i k * (s k * s j * entry B k j)) with (s k * s k * (s i * s j * (entry A i k * entry B k j))) by ring.
      rewrite sign_sq by (now apply Hs). ring.
    - rewrite E. unfold unit_entry. destruct (Nat.eqb_spec i j) as [->|]; [|ring]. rewrite sign_sq by (now apply Hs). ring. }
  intros i j Hi Hj. destruct (HI i j Hi Hj) as [E1 E2]. split; now apply G.
Qed.

Lemma observed_unique p L x V1 V2 : observed_covariance p L x V1 -> observed_covariance p L x V2 -> V1 = V2.
Proof.
  intros (H1 & S1 & A1 & B1 & C1 & D1) (H2 & S2 & A2 & B2 & C2 & D2). apply (list_entries p); auto. intros i j Hi Hj. rewrite D1, D2 by assumption.
  rewrite (hessian_unique _ _ _ _ _ A1 A2) in B1. now rewrite (inverse_unique _ _ _ _ B1 B2).
Qed.

(** * What is reported *)
Definition signs_of (p_theta : nat) (e : list R) (i : nat) : R :=
  if (i <? p_theta)%nat then (if Rltb (nth i e 0) 0 then -1 else 1) else 1.
Lemma signs_sign p_theta e i : sign (signs_of p_theta e i).
Proof. unfold signs_of, sign. destruct (i <? p_theta)%nat; auto. destruct (Rltb _ _); auto. Qed.

Lemma zero_lower (lower : list bound) : (forall b, In b lower -> b = Zero) -> forallb (fun b => match b with Zero => true | MinusInf => false end) lower = true.
Proof. intros H. apply forallb_forall. intros b Hb. now rewrite (H b Hb). Qed.

Lemma report_eq lower p_theta p (e : list R) : (forall b, In b lower -> b = Zero) -> (p_theta <= p)%nat -> length e = p ->
  length (report_estim Rnum lower p_theta e) = p /\
  forall i, (i < p)%nat -> nth i (report_estim Rnum lower p_theta e : list R) 0 = signs_of p_theta e i * nth i e 0.
Proof.
  intros Hl Hp Le. unfold report_estim. rewrite (zero_lower _ Hl).
  assert (L1 : length (map (abs Rnum) (firstn p_theta e)) = p_theta) by (rewrite map_length, firstn_length; lia).
  split; [etransitivity; [apply app_length|]; etransitivity; [apply (f_equal2 Nat.add L1 (skipn_length p_theta e))|lia]|].
  intros i Hi. unfold signs_of. destruct (Nat.ltb_spec i p_theta) as [Hlt|Hge].
  - etransitivity; [apply app_nth1; exact (eq_ind_r (fun n => (i < n)%nat) Hlt L1)|].
    assert (A0 : abs Rnum (0 : R) = 0). { unfold abs. cbn. unfold Rltb. destruct (Rlt_dec 0 0); [lra|reflexivity]. }
    etransitivity; [apply (nth_indep _ 0 (abs Rnum (0 : R))); exact (eq_ind_r (fun n => (i < n)%nat) Hlt L1)|].
    etransitivity; [apply (map_nth (abs Rnum))|]. etransitivity; [apply f_equal, (nth_firstn_lt e 0 p_theta i Hlt)|].
    unfold abs. cbn [nltb nZ nopp Rnum]. destruct (Rltb (nth i e 0) 0); ring.
  - etransitivity; [apply app_nth2; exact (eq_ind_r (fun n => (n <= i)%nat) Hge L1)|].
    etransitivity; [exact (f_equal (fun n => nth (i - n) (skipn p_theta e) 0) L1)|]. rewrite nth_skipn_add. rewrite Rmult_1_l. f_equal. lia.
Qed.

Lemma signless_report p_theta p_beta L e : signless p_theta (p_theta + p_beta) L -> forall y, length y = (p_theta + p_beta)%nat ->
  L (map (fun i => signs_of p_theta e i * nth i y 0) (seq 0 (p_theta + p_beta))) = L y.
Proof.
  intros HL y Ly. rewrite <- (HL (map (signs_of p_theta e) (seq 0 p_theta)) y).
  - f_equal. apply (vec_ext _ _ (p_theta + p_beta)).
    + now rewrite map_length, seq_length.
    + rewrite app_length, skipn_length. unfold flip. rewrite map_length, combine_length, map_length, seq_length, firstn_length. lia.
    + intros k Hk.
      rewrite (nth_indep _ 0 (signs_of p_theta e 0 * nth 0 y 0)) by (rewrite map_length, seq_length; exact Hk).
      rewrite (map_nth (fun i => signs_of p_theta e i * nth i y 0)), seq_nth by exact Hk. cbn [plus].
      assert (LF : length (flip (map (signs_of p_theta e) (seq 0 p_theta)) (firstn p_theta y)) = p_theta).
      { unfold flip. rewrite map_length, combine_length, map_length, seq_length, firstn_length. lia. }
      destruct (Nat.lt_ge_cases k p_theta) as [Hlt|Hge].
      * rewrite app_nth1 by (now rewrite LF). unfold flip.
        rewrite (nth_indep (map (fun su : R * R => fst su * snd su) (combine (map (signs_of p_theta e) (seq 0 p_theta)) (firstn p_theta y)))
          0 ((fun su => fst su * snd su) (0, 0))) by exact (eq_ind_r (fun n => (k < n)%nat) Hlt LF).
        rewrite (map_nth (fun su : R * R => fst su * snd su)). rewrite combine_nth by (rewrite map_length, seq_length, firstn_length; lia). cbn [fst snd].
        rewrite (nth_firstn_lt y 0 p_theta k Hlt). f_equal.
        rewrite (nth_indep (map (signs_of p_theta e) (seq 0 p_theta)) 0 (signs_of p_theta e 0)) by (rewrite map_length, seq_length; exact Hlt).
        rewrite (map_nth (signs_of p_theta e)), seq_nth by exact Hlt. reflexivity.
      * rewrite app_nth2 by (now rewrite LF). rewrite LF, nth_skipn_add. unfold signs_of. rewrite Nat.add_0_l. destruct (Nat.ltb_spec k p_theta); [lia|].
        etransitivity; [apply Rmult_1_l|]. f_equal. lia.
  - now rewrite map_length, seq_length.
  - apply List.Forall_forall. intros s Hs. apply in_map_iff in Hs. destruct Hs as (i & <- & _). apply signs_sign.
  - exact Ly.
Qed.

Lemma C61_reported_main : forall lower p_theta p_beta nt nb L e Sigma V0 f, (forall b, In b lower -> b = Zero) ->
  signless p_theta (p_theta + p_beta) L -> observed_covariance (p_theta + p_beta) L e Sigma ->
  make_fit lower p_theta p_beta nt nb (e, Sigma) = f -> ft_Sigma f = Some V0 ->
  exists s, (forall i, s i = 1 <-> (p_theta <= i)%nat \/ 0 <= nth i e 0) /\ (forall i, sign (s i)) /\
    length (ft_estim f) = (p_theta + p_beta)%nat /\
    (forall i, (i < p_theta + p_beta)%nat -> nth i (ft_estim f) 0 = s i * nth i e 0) /\
    L (ft_estim f) = L e /\
    (exists V, observed_covariance (p_theta + p_beta) L (ft_estim f) V) /\
    forall V, observed_covariance (p_theta + p_beta) L (ft_estim f) V ->
      (forall i j, (i < p_theta + p_beta)%nat -> (j < p_theta + p_beta)%nat -> entry V0 i j = s i * s j * entry V i j) /\
      forall upper, length (summary upper (ft_estim f) V0) = (p_theta + p_beta)%nat /\
        forall i d, (i < p_theta + p_beta)%nat ->
          let se := sqrt (entry V i i) in let z := Rabs (nth i (ft_estim f) 0 / se) in
          nth i (summary upper (ft_estim f) V0) d = (se, z, 2 * upper z).
Proof.
  intros lower p_theta p_beta nt nb L e Sigma V0 f Hlow HL HO <- HV. set (p := (p_theta + p_beta)%nat) in *.
  cbn [make_fit ft_Sigma ft_estim fst snd] in *. destruct (existsb _ _); [discriminate|]. injection HV as <-.
  assert (Le : length e = p) by (destruct HO as (H & S & A & _); apply A).
  destruct (report_eq lower p_theta p e Hlow ltac:(unfold p; lia) Le) as [LR NR].
  set (e' := (report_estim Rnum lower p_theta e : list R)) in *. set (s := signs_of p_theta e) in *.
  assert (Hs : forall i, sign (s i)) by (intros i; apply signs_sign).
  assert (HV : observed_covariance p L e' (signed p s Sigma)).
  { destruct HO as (H & S & A & B & C & D). exists (signed p s H), (signed p s S). split; [|split; [|split]].
    - set (T := fun y : list R => map (fun i => s i * nth i y 0) (seq 0 p)).
      assert (HT : forall y, length y = p -> length (T y) = p /\ forall i, (i < p)%nat -> nth i (T y) 0 = s i * nth i y 0 + 0).
      { intros y Ly. unfold T. rewrite map_length, seq_length. split; [reflexivity|]. intros i Hi.
        rewrite (nth_indep _ 0 (s 0%nat * nth 0 y 0)) by (rewrite map_length, seq_length; exact Hi).
        rewrite (map_nth (fun i => s i * nth i y 0)), seq_nth by exact Hi. rewrite Nat.add_0_l. ring. }
      replace e' with (T e).
      + apply (hessian_affine p _ s (fun _ => 0) T e H); auto; [|apply signed_square|intros; now apply signed_entry].
        apply (hessian_ext p (fun y => -2 * L y)); [|exact A]. intros y Ly. f_equal. symmetry. now apply signless_report.
      + apply (vec_ext _ _ p); [now apply HT|exact LR|]. intros k Hk. destruct (HT e Le) as [_ N]. rewrite N, NR by exact Hk. ring.
    - now apply signed_inverse.
    - apply signed_square.
    - intros i j Hi Hj. rewrite !signed_entry by assumption. rewrite D by assumption. ring. }
  exists s. split; [|split; [exact Hs|split; [exact LR|split; [exact NR|split; [|split; [now exists (signed p s Sigma)|]]]]]].
  - intros i. unfold s, signs_of. destruct (Nat.ltb_spec i p_theta) as [Hlt|Hge].
    + unfold Rltb. destruct (Rlt_dec (nth i e 0) 0) as [N|N]; split; intros H.
      * exfalso. lra.
      * exfalso. destruct H; [lia|lra].
      * right. lra.
      * reflexivity.
    + split; auto.
  - replace e' with (map (fun i => s i * nth i e 0) (seq 0 p)); [now apply signless_report|].
    apply (vec_ext _ _ p); [now rewrite map_length, seq_length|exact LR|]. intros k Hk. rewrite NR by exact Hk.
    rewrite (nth_indep _ 0 (s 0%nat * nth 0 e 0)) by (rewrite map_length, seq_length; exact Hk).
    rewrite (map_nth (fun i => s i * nth i e 0)), seq_nth by exact Hk. reflexivity.
  - intros V HV'. rewrite <- (observed_unique _ _ _ _ _ HV HV').
    assert (E : forall i j, (i < p)%nat -> (j < p)%nat -> entry Sigma i j = s i * s j * entry (signed p s Sigma) i j).
    { intros i j Hi Hj. rewrite signed_entry by assumption.
      replace (s i * s j * (s i * s j * entry Sigma i j)) with ((s i * s i) * (s j * s j) * entry Sigma i j) by ring. rewrite !sign_sq by apply Hs. ring. }
    split; [exact E|]. intros upper. unfold summary. pose proof (LR : List.length e' = p) as LR0. split; [etransitivity; [apply map_length|]; etransitivity; [apply seq_length|exact LR0]|].
    intros i d Hi. rewrite LR0. set (g := fun i : nat => _).
    rewrite (nth_indep _ d (g 0%nat)) by (rewrite map_length, seq_length; exact Hi). rewrite (map_nth g), seq_nth, Nat.add_0_l by exact Hi. unfold g.
    change (nth i (nth i Sigma []) 0) with (entry Sigma i i).
    rewrite (E i i Hi Hi). rewrite (sign_sq (s i)) by apply Hs. now rewrite Rmult_1_l.
Qed.

(** * The covariance found by the optimization *)
Lemma C61_found_main : forall optim solve lfun p_beta p_theta prev start L e Sigma, (1 <= p_theta)%nat ->
  start = match prev with Some x => x | None => repeat (1 / 2) p_theta ++ repeat 0 p_beta end -> length start = (p_theta + p_beta)%nat ->
  (forall f x H, optim f (repeat 0 (p_theta + p_beta)) = Ok (x, H) ->
     hessian (p_theta + p_beta) (fun y => -2 * L (map (fun ab => fst ab + snd ab) (combine y start))) x H) ->
  (forall H S, solve H = Ok S -> are_inverse (p_theta + p_beta) H S) ->
  optimize_glmm optim solve lfun p_beta p_theta prev = Ok (e, Sigma) ->
  observed_covariance (p_theta + p_beta) L e Sigma.
Proof.
  intros optim solve lfun p_beta p_theta prev start L e Sigma Hp Hst Ls HO HS H. unfold optimize_glmm in H.
  set (p := (p_theta + p_beta)%nat) in *. change (starting_values p_theta p_beta prev) with (match prev with Some x => x | None => repeat (1 / 2) p_theta ++ repeat 0 p_beta end) in H.
  rewrite <- Hst in H.
  apply bind_Ok in H. destruct H as (d0 & Hd0 & H). apply bind_Ok in H. destruct H as ([x hess] & Hx & H).
  apply bind_Ok in H. destruct H as (inv & Hinv & H). injection H as <- <-.
  specialize (HO _ _ _ Hx). specialize (HS _ _ Hinv). exists hess, inv.
  assert (Lx : length x = p) by apply HO. destruct HS as (SqH & SqI & HI).
  split; [|split; [split; auto|split]].
  - set (T := fun y : list R => recycled_sum y start).
    apply (hessian_affine p _ (fun _ => 1) (fun i => nth i start 0) T x hess).
    + intros i _. now left.
    + intros y Ly. split; [now apply recycled_len|]. intros i Hi. unfold T. rewrite (recycled_nth _ _ p) by assumption. ring.
    + apply (hessian_ext p (fun y => -2 * L (map (fun ab => fst ab + snd ab) (combine y start)))); [|exact HO].
      intros y Ly. do 2 f_equal. apply (vec_ext _ _ p); [rewrite map_length, combine_length; lia|now apply recycled_len|].
      intros k Hk. unfold T. rewrite (recycled_nth _ _ p) by assumption.
      rewrite (nth_indep _ 0 ((fun ab => fst ab + snd ab) (0, 0))) by (rewrite map_length, combine_length; lia).
      rewrite (map_nth (fun ab : R * R => fst ab + snd ab)), combine_nth by lia. reflexivity.
    + exact SqH.
    + intros i j _ _. ring.
  - destruct SqI as [L1 L2]. split; [unfold mscale; now rewrite map_length|]. intros i Hi. unfold mscale.
    rewrite (nth_indep _ [] (vscale 2 [])) by (rewrite map_length; lia). rewrite (map_nth (vscale 2)). unfold vscale. rewrite map_length. now apply L2.
  - destruct SqI as [L1 L2]. intros i j Hi Hj. unfold entry, mscale. rewrite (nth_indep _ [] (vscale 2 [])) by (rewrite map_length; lia). rewrite (map_nth (vscale 2)). unfold vscale.
    rewrite (nth_indep _ 0 (2 * 0)) by (rewrite map_length, L2; lia). now rewrite (map_nth (Rmult 2)).
Qed.
