(** C29: the Gauss-Hermite rule is exact for polynomials of degree below 2n. *)
From Coq Require Import List Reals Lia Lra Arith.
From Coquelicot Require Import Coquelicot.
From Verif Require Import Model.Base Model.Vectors Model.Quadrature Spec.GLMMSpec Spec.MatrixSpec Spec.HermiteSpec
  Proofs.GLMMLemmas Proofs.VectorLemmas Proofs.SumLemmas Proofs.NormalMain Proofs.ConditionalMain Proofs.GaussMain.
Import ListNotations.
Local Open Scope R_scope.

(** * Powers in the basis of monic Hermite polynomials:
      x^k = sum_j coef k j h_j, where x h_j = h_(j+1) + j/2 h_(j-1). *)
Definition prev (f : nat -> R) (j : nat) : R := match j with O => 0 | S i => f i end.
Fixpoint coef (k : nat) (j : nat) : R :=
  match k with
  | O => if Nat.eqb j 0 then 1 else 0
  | S k' => prev (coef k') j + INR (S j) / 2 * coef k' (S j)
  end.
Lemma coef_S k j : coef (S k) j = prev (coef k) j + INR (S j) / 2 * coef k (S j).
Proof. reflexivity. Qed.
Lemma coef_high k : forall j, (k < j)%nat -> coef k j = 0.
Proof.
  induction k as [|k IH]; intros j Hj; [destruct j; [lia|reflexivity]|].
  rewrite coef_S, (IH (S j)) by lia. destruct j as [|j]; [lia|]. cbn [prev]. rewrite IH by lia. ring.
Qed.
Lemma coef_shift k : forall j, INR (S j) * coef (S k) (S j) = INR (S k) * coef k j.
Proof.
  induction k as [|k IH]; intros j.
  - rewrite coef_S. cbn [prev coef]. destruct j as [|j]; cbn -[INR]; [field|]. rewrite !Rmult_0_r, Rplus_0_r. ring.
  - rewrite (coef_S (S k) (S j)). cbn [prev].
    assert (E : INR (S j) * coef (S k) j = INR (S k) * prev (coef k) j + coef (S k) j).
    { destruct j as [|j]; cbn [prev]; [cbn [INR]; ring|]. rewrite <- IH. rewrite (S_INR (S j)). ring. }
    pose proof (IH (S j)) as I1.
    rewrite Rmult_plus_distr_l, E.
    replace (INR (S j) * (INR (S (S j)) / 2 * coef (S k) (S (S j))))
      with (INR (S j) / 2 * (INR (S (S j)) * coef (S k) (S (S j)))) by field.
    rewrite I1. rewrite (S_INR (S k)).
    rewrite (coef_S k j). rewrite Rmult_plus_distr_r, Rmult_1_l, <- (coef_S k j). ring_simplify.
    rewrite (coef_S k j). field.
Qed.
Lemma coef_moment k : coef k 0 = moment k.
Proof.
  assert (G : forall k, coef k 0 = moment k /\ coef (S k) 0 = moment (S k)).
  { clear k. induction k as [|k [IH1 IH2]].
    - split; [reflexivity|]. rewrite coef_S. cbn. ring.
    - split; [exact IH2|]. rewrite coef_S. change (moment (S (S k))) with (INR (S k) / 2 * moment k). cbn [prev]. rewrite <- IH1.
      pose proof (coef_shift k 0) as E. change (INR 1) with 1 in *. rewrite Rmult_1_l in E. rewrite E. field. }
  exact (proj1 (G k)).
Qed.

(** * The Jacobi matrix *)
Definition b_ (j : nat) : R := sqrt (INR j / 2).
Lemma b_sq j : b_ j * b_ j = INR j / 2.
Proof. unfold b_. apply sqrt_sqrt. apply Rmult_le_pos; [apply pos_INR|lra]. Qed.
Fixpoint scale_ (j : nat) : R := match j with O => 1 | S i => b_ (S i) * scale_ i end.

Section Jacobi.
Variables (n : nat) (lam : list R) (Q : list (list R)).
Hypothesis Hed : eigendecomposition n (findHermiteJacobi n) lam Q.
Hypothesis Hn : (0 < n)%nat.

Lemma L_entry i j : (i < n)%nat -> (j < n)%nat ->
  entry (findHermiteJacobi n) i j = if Nat.eqb i (S j) then b_ i else 0.
Proof.
  intros Hi Hj. exact (mat_of_entry n (fun i j => if Nat.eqb i (S j) then b_ i else 0) i j Hi Hj).
Qed.
Lemma J_entry i j : (i < n)%nat -> (j < n)%nat ->
  lower (findHermiteJacobi n) i j = (if Nat.eqb i (S j) then b_ i else 0) + (if Nat.eqb j (S i) then b_ j else 0).
Proof.
  intros Hi Hj. unfold lower. destruct (Nat.leb_spec j i) as [H|H]; rewrite L_entry by auto.
  - destruct (Nat.eqb_spec j (S i)); [lia|]. ring.
  - destruct (Nat.eqb_spec i (S j)); [lia|]. ring.
Qed.
(** Row j of the Jacobi matrix times a vector. *)
Lemma J_row j f : (j < n)%nat ->
  sumR n (fun l => lower (findHermiteJacobi n) j l * f l)
  = prev (fun i => b_ (S i) * f i) j + (if Nat.ltb (S j) n then b_ (S j) * f (S j) else 0).
Proof.
  intros Hj.
  rewrite (sumR_ext n _ (fun l => (if Nat.eqb j (S l) then b_ j * f l else 0) + (if Nat.eqb l (S j) then b_ l * f l else 0))).
  2:{ intros l Hl. rewrite J_entry by auto. destruct (Nat.eqb j (S l)), (Nat.eqb l (S j)); ring. }
  rewrite sumR_plus. f_equal.
  - destruct j as [|j]; cbn [prev].
    + transitivity (sumR n (fun _ => 0)); [apply sumR_ext; intros l _; reflexivity|apply sumR_zero].
    + rewrite (sumR_single n j); [cbn; rewrite Nat.eqb_refl; reflexivity|lia|].
      intros i Hi Hne. destruct (Nat.eqb_spec (S j) (S i)); [lia|reflexivity].
  - destruct (Nat.ltb_spec (S j) n) as [H|H].
    + rewrite (sumR_single n (S j)); [rewrite Nat.eqb_refl; reflexivity|lia|].
      intros i Hi Hne. destruct (Nat.eqb_spec i (S j)); [lia|reflexivity].
    + transitivity (sumR n (fun _ => 0)); [apply sumR_ext; intros l Hl; destruct (Nat.eqb_spec l (S j)); [lia|reflexivity]|apply sumR_zero].
Qed.

(** First row of the k-th power of the Jacobi matrix. *)
Let T k j := sumR n (fun i => entry Q 0 i * nth i lam 0 ^ k * entry Q j i).
Lemma T_0 j : (j < n)%nat -> T 0 j = if Nat.eqb j 0 then 1 else 0.
Proof.
  intros Hj. unfold T. rewrite (sumR_ext n _ (fun i => entry Q 0 i * entry Q j i)) by (intros; cbn; ring).
  rewrite (ed_orthonormal _ _ _ _ Hed) by auto. unfold unit_entry. rewrite Nat.eqb_sym. reflexivity.
Qed.
Lemma T_S k j : (j < n)%nat ->
  T (S k) j = prev (fun i => b_ (S i) * T k i) j + (if Nat.ltb (S j) n then b_ (S j) * T k (S j) else 0).
Proof.
  intros Hj. rewrite <- J_row by auto. unfold T.
  rewrite (sumR_ext n _ (fun i => sumR n (fun l => entry Q 0 i * nth i lam 0 ^ k * (lower (findHermiteJacobi n) j l * entry Q l i)))).
  2:{ intros i Hi. rewrite sumR_scal, (ed_eigen _ _ _ _ Hed) by auto. cbn. ring. }
  rewrite sumR_swap. apply sumR_ext. intros l Hl. rewrite <- sumR_scal. apply sumR_ext. intros i Hi. ring.
Qed.
Lemma T_coef k : forall j, (j < n)%nat -> (k + j < 2 * n)%nat -> T k j = scale_ j * coef k j.
Proof.
  induction k as [|k IH]; intros j Hj H.
  - rewrite T_0 by auto. destruct j; cbn; ring.
  - rewrite T_S by auto. rewrite coef_S.
    assert (E1 : prev (fun i => b_ (S i) * T k i) j = scale_ j * prev (coef k) j).
    { destruct j as [|j]; cbn [prev]; [ring|]. rewrite IH by lia. cbn [scale_]. ring. }
    rewrite E1. destruct (Nat.ltb_spec (S j) n) as [L|L].
    + rewrite IH by lia. cbn [scale_].
      replace (b_ (S j) * (b_ (S j) * scale_ j * coef k (S j))) with (b_ (S j) * b_ (S j) * (scale_ j * coef k (S j))) by ring.
      rewrite b_sq. ring.
    + rewrite (coef_high k (S j)) by lia. ring.
Qed.
Lemma spectral_moment k : (k < 2 * n)%nat ->
  sumR n (fun i => entry Q 0 i * entry Q 0 i * nth i lam 0 ^ k) = moment k.
Proof.
  intros Hk. rewrite <- coef_moment. replace (coef k 0) with (scale_ 0 * coef k 0) by (cbn; ring).
  rewrite <- T_coef by lia. unfold T. apply sumR_ext. intros i _. ring.
Qed.

(** No eigenvector has first component zero. *)
Lemma sum_pick m i (f : nat -> R) : (i < m)%nat -> sumR m (fun l => if Nat.eqb l i then f l else 0) = f i.
Proof.
  intros Hi. rewrite (sumR_single m i); [now rewrite Nat.eqb_refl|exact Hi|]. intros l _ Hl. destruct (Nat.eqb_spec l i); [lia|reflexivity].
Qed.
Lemma sumR_nonneg m f : (forall i, (i < m)%nat -> 0 <= f i) -> 0 <= sumR m f.
Proof. intros H. rewrite <- (sumR_zero m). apply sumR_le. exact H. Qed.
Lemma column_le i : (i < n)%nat -> sumR n (fun a => entry Q a i * entry Q a i) <= 1.
Proof.
  intros Hi. set (c := sumR n (fun a => entry Q a i * entry Q a i)).
  set (p := fun l => sumR n (fun a => entry Q a i * entry Q a l)).
  assert (E : sumR n (fun l => (unit_entry i l - p l) * (unit_entry i l - p l)) = 1 - c).
  { rewrite (sumR_ext n _ (fun l => (if Nat.eqb l i then 1 - 2 * p l else 0) + p l * p l)).
    2:{ intros l _. unfold unit_entry. rewrite Nat.eqb_sym. destruct (Nat.eqb_spec l i); ring. }
    rewrite sumR_plus. rewrite (sum_pick n i (fun l => 1 - 2 * p l)) by auto. change (p i) with c.
    assert (E2 : sumR n (fun l => p l * p l) = c); [|lra].
    unfold p at 1. rewrite (sumR_ext n _ (fun l => sumR n (fun a => entry Q a i * (entry Q a l * p l)))).
    2:{ intros l _. rewrite Rmult_comm, <- sumR_scal. apply sumR_ext. intros; ring. }
    rewrite sumR_swap. unfold c. apply sumR_ext. intros a Ha. rewrite sumR_scal. f_equal.
    unfold p. rewrite (sumR_ext n _ (fun l => sumR n (fun a' => entry Q a' i * (entry Q a l * entry Q a' l)))).
    2:{ intros l _. rewrite <- sumR_scal. apply sumR_ext. intros; ring. }
    rewrite sumR_swap. rewrite (sumR_ext n _ (fun a' => if Nat.eqb a' a then entry Q a' i else 0)).
    2:{ intros a' Ha'. rewrite sumR_scal, (ed_orthonormal _ _ _ _ Hed) by auto. unfold unit_entry. rewrite Nat.eqb_sym. destruct (Nat.eqb_spec a' a); ring. }
    apply (sum_pick n a (fun a' => entry Q a' i)). exact Ha. }
  assert (0 <= sumR n (fun l => (unit_entry i l - p l) * (unit_entry i l - p l))).
  { apply sumR_nonneg. intros l _. apply Rle_0_sqr. }
  lra.
Qed.
Lemma column_nonzero i : (i < n)%nat -> exists a, (a < n)%nat /\ entry Q a i <> 0.
Proof.
  intros Hi.
  assert (T1 : sumR n (fun j => sumR n (fun a => entry Q a j * entry Q a j)) = INR n).
  { rewrite sumR_swap. rewrite (sumR_ext n _ (fun _ => 1)).
    - clear. induction n as [|k IH]; [rewrite sumR_0; reflexivity|]. rewrite sumR_S, S_INR, IH. ring.
    - intros a Ha. rewrite (ed_orthonormal _ _ _ _ Hed) by auto. unfold unit_entry. now rewrite Nat.eqb_refl. }
  destruct (existsb (fun a => if Req_EM_T (entry Q a i) 0 then false else true) (seq 0 n)) eqn:Ex.
  - apply existsb_exists in Ex. destruct Ex as (a & Ha & Hz). apply in_seq in Ha. exists a. split; [lia|].
    destruct (Req_EM_T (entry Q a i) 0); [discriminate|assumption].
  - exfalso. assert (Z : forall a, (a < n)%nat -> entry Q a i = 0).
    { intros a Ha. destruct (Req_EM_T (entry Q a i) 0) as [|Hne]; auto. exfalso.
      assert (existsb (fun a => if Req_EM_T (entry Q a i) 0 then false else true) (seq 0 n) = true); [|congruence].
      apply existsb_exists. exists a. split; [apply in_seq; lia|]. destruct (Req_EM_T (entry Q a i) 0); [contradiction|reflexivity]. }
    assert (L : sumR n (fun j => 1 - (if Nat.eqb j i then 1 else 0) - sumR n (fun a => entry Q a j * entry Q a j)) >= 0).
    { apply Rle_ge, sumR_nonneg. intros j Hj. destruct (Nat.eqb_spec j i) as [->|].
      - rewrite (sumR_ext n _ (fun _ => 0)), sumR_zero by (intros a Ha; rewrite (Z a Ha); ring). lra.
      - pose proof (column_le j Hj). lra. }
    rewrite (sumR_ext n _ (fun j => (1 + - (if Nat.eqb j i then 1 else 0)) + - sumR n (fun a => entry Q a j * entry Q a j))) in L by (intros; ring).
    rewrite !sumR_plus in L.
    rewrite (sumR_ext n (fun j => - sumR n (fun a => entry Q a j * entry Q a j)) (fun j => -1 * sumR n (fun a => entry Q a j * entry Q a j))) in L by (intros; ring).
    rewrite (sumR_ext n (fun j => - (if Nat.eqb j i then 1 else 0)) (fun j => -1 * (if Nat.eqb j i then 1 else 0))) in L by (intros; ring).
    rewrite !sumR_scal, T1 in L. rewrite (sum_pick n i (fun _ => 1)) in L by auto.
    assert (E1 : sumR n (fun _ => 1) = INR n).
    { clear. induction n as [|k IH]; [rewrite sumR_0; reflexivity|]. rewrite sumR_S, S_INR, IH. ring. }
    rewrite E1 in L. lra.
Qed.
Lemma first_nonzero i : (i < n)%nat -> entry Q 0 i <> 0.
Proof.
  intros Hi E. assert (Z : forall j, (forall a, (a <= j)%nat -> (a < n)%nat -> entry Q a i = 0)).
  { induction j as [|j IH]; intros a Ha Hn'.
    - replace a with 0%nat by lia. exact E.
    - destruct (Nat.eq_dec a (S j)) as [->|]; [|apply IH; lia].
      pose proof (J_row j (fun l => entry Q l i) ltac:(lia)) as HR. cbn beta in HR. rewrite (ed_eigen _ _ _ _ Hed) in HR by lia.
      rewrite (IH j) in HR by lia. rewrite (proj2 (Nat.ltb_lt (S j) n)) in HR by lia.
      assert (P : prev (fun i0 => b_ (S i0) * entry Q i0 i) j = 0).
      { destruct j as [|j']; cbn [prev]; [reflexivity|]. rewrite (IH j') by lia. ring. }
      rewrite P in HR. assert (B : 0 < b_ (S j)).
      { unfold b_. apply sqrt_lt_R0. rewrite S_INR. pose proof (pos_INR j). lra. }
      assert (b_ (S j) * entry Q (S j) i = 0) as Hz by lra. apply Rmult_integral in Hz. destruct Hz; lra. }
  destruct (column_nonzero i Hi) as (a & Ha & Hne). apply Hne, (Z a); auto.
Qed.

(** * The rule *)
Variable (es : rmat -> rvec * rmat).
Hypothesis Hes : es (findHermiteJacobi n) = (lam, Q).
Let r := rule_initialize es n.

Lemma hd_nth {A} (d : A) l : hd d l = nth 0 l d.
Proof. destruct l; reflexivity. Qed.
Lemma r_nodes : qr_nodes r = lam.
Proof. unfold r, rule_initialize. rewrite Hes. reflexivity. Qed.
Lemma r_weights : qr_weights r = map (fun v => sqrtPi * v * v) (nth 0 Q []).
Proof. unfold r, rule_initialize. rewrite Hes. rewrite hd_nth. reflexivity. Qed.
Lemma r_weights_length : length (qr_weights r) = n.
Proof. rewrite r_weights, map_length. apply (ed_vectors _ _ _ _ Hed). exact Hn. Qed.
Lemma r_weights_nth i : (i < n)%nat -> nth i (qr_weights r) 0 = sqrtPi * entry Q 0 i * entry Q 0 i.
Proof.
  intros Hi. rewrite r_weights. rewrite (nth_map_lt _ _ _ _ 0); [reflexivity|].
  rewrite (proj2 (ed_vectors _ _ _ _ Hed)); auto.
Qed.
Lemma fold_nodes (f : R * R -> R) : forall nodes ws, length nodes = length ws -> forall s,
  fold_left (fun ret nw => ret + f nw) (combine nodes ws) s
  = s + sumR (length nodes) (fun i => f (nth i nodes 0, nth i ws 0)).
Proof.
  induction nodes as [|z nodes IH]; intros [|w ws] L s; cbn [combine fold_left length]; try discriminate.
  - rewrite sumR_0. ring.
  - rewrite IH by (cbn in L; lia). rewrite sumR_S. cbn [nth]. ring.
Qed.
Lemma rule_sum (f : R -> R) mu sigma :
  integrate1D f mu sigma r = sqrt 2 * sigma * sumR n (fun i =>
    sqrtPi * entry Q 0 i * entry Q 0 i * f (sqrt 2 * sigma * nth i lam 0 + mu) * exp (nth i lam 0 ^ 2)).
Proof.
  unfold integrate1D. f_equal.
  rewrite (fold_nodes (fun nw => snd nw * f (sqrt 2 * sigma * fst nw + mu) * exp (fst nw ^ 2))).
  2:{ rewrite r_nodes, r_weights_length. apply (ed_values _ _ _ _ Hed). }
  rewrite Rplus_0_l, r_nodes. replace (length lam) with n by (symmetry; apply (ed_values _ _ _ _ Hed)).
  apply sumR_ext. intros i Hi. cbn [fst snd]. rewrite r_weights_nth by auto. reflexivity.
Qed.

(** * Polynomials *)
Lemma poly_sum p x : poly p x = sumR (length p) (fun k => nth k p 0 * x ^ k).
Proof.
  unfold poly. induction p as [|c p IH]; [reflexivity|]. cbn [fold_right length]. rewrite sumR_S. cbn [nth pow].
  rewrite IH, <- sumR_scal. rewrite Rmult_1_r. f_equal. apply sumR_ext. intros k _. ring.
Qed.
Definition padd : rvec -> rvec -> rvec :=
  fix go p q := match p, q with [], _ => q | _, [] => p | a :: p', b :: q' => (a + b) :: go p' q' end.
Lemma padd_poly p q x : poly (padd p q) x = poly p x + poly q x.
Proof.
  unfold poly. revert q. induction p as [|a p IH]; intros q; [cbn; ring|]. destruct q as [|b q]; [cbn; ring|].
  cbn [padd fold_right]. rewrite IH. ring.
Qed.
Lemma padd_length p q : length (padd p q) = Nat.max (length p) (length q).
Proof. revert q. induction p as [|a p IH]; intros [|b q]; cbn; auto. Qed.
Lemma vscale_poly c p x : poly (vscale c p) x = c * poly p x.
Proof. unfold poly, vscale. induction p as [|a p IH]; cbn; [ring|]. rewrite IH. ring. Qed.
(** p(s x + mu) *)
Fixpoint compose (p : rvec) (s mu : R) : rvec :=
  match p with
  | [] => []
  | [c] => [c]
  | c :: p' => padd [c] (padd (vscale mu (compose p' s mu)) (0 :: vscale s (compose p' s mu)))
  end.
Lemma compose_spec p s mu : length (compose p s mu) = length p /\
  forall x, poly (compose p s mu) x = poly p (s * x + mu).
Proof.
  induction p as [|c p [IH1 IH2]]; [split; reflexivity|]. destruct p as [|c' p].
  - split; [reflexivity|]. intros x. cbn. ring.
  - change (compose (c :: c' :: p) s mu) with
      (padd [c] (padd (vscale mu (compose (c' :: p) s mu)) (0 :: vscale s (compose (c' :: p) s mu)))).
    split.
    + rewrite !padd_length. cbn [length]. rewrite !vscale_length, IH1. cbn [length]. lia.
    + intros x. rewrite !padd_poly, vscale_poly, IH2.
      change (poly (0 :: vscale s (compose (c' :: p) s mu)) x) with (0 + x * poly (vscale s (compose (c' :: p) s mu)) x).
      rewrite vscale_poly, IH2.
      change (poly (c :: c' :: p) (s * x + mu)) with (c + (s * x + mu) * poly (c' :: p) (s * x + mu)).
      change (poly [c] x) with (c + x * 0). ring.
Qed.

(** * Integrals *)
Lemma gen_scal (f : R -> R) c l : integral f l -> integral (fun x => c * f x) (c * l).
Proof. exact (is_RInt_gen_scal f c l). Qed.
Lemma gen_plus (f g : R -> R) l m : integral f l -> integral g m -> integral (fun x => f x + g x) (l + m).
Proof. exact (is_RInt_gen_plus f g l m). Qed.
Lemma poly_integral q : integral (fun x => poly q x * exp (- x ^ 2)) (sqrt PI * sumR (length q) (fun k => nth k q 0 * moment k)).
Proof.
  unfold integral.
  apply (is_RInt_gen_ext (fun x => sumR (length q) (fun k => nth k q 0 * (x ^ k * exp (- x ^ 2))))).
  { apply filter_forall. intros ab x _. rewrite poly_sum, <- sumR_scal_r. apply sumR_ext. intros k _. ring. }
  rewrite <- sumR_scal. generalize (length q) as m. induction m as [|m IH].
  - pose proof (gen_scal _ 0 _ (moments 0)) as M. rewrite Rmult_0_l in M.
    eapply is_RInt_gen_ext; [|exact M]. apply filter_forall. intros ab x _. change (0 * (x ^ 0 * exp (- x ^ 2)) = sumR 0 (fun k => nth k q 0 * (x ^ k * exp (- x ^ 2)))). rewrite sumR_0. ring.
  - rewrite sumR_last. pose proof (gen_scal _ (nth m q 0) _ (moments m)) as M.
    replace (sqrt PI * (nth m q 0 * moment m)) with (nth m q 0 * (sqrt PI * moment m)) by ring.
    eapply is_RInt_gen_ext; [|exact (gen_plus _ _ _ _ IH M)].
    apply filter_forall. intros ab x _. exact (eq_sym (sumR_last m (fun k => nth k q 0 * (x ^ k * exp (- x ^ 2))))).
Qed.
(** Substitution t = s u + mu. *)
Lemma integral_affine (f : R -> R) s mu l : 0 < s -> integral (fun u => f (s * u + mu)) l -> integral f (s * l).
Proof.
  intros Hs H. pose proof (gen_scal _ s _ H) as H'.
  intros P HP. destruct (H' P HP) as [A B [MA HA] [MB HB] K].
  apply (Filter_prod _ _ _ (fun a => A ((a - mu) / s)) (fun b => B ((b - mu) / s))).
  - exists (s * MA + mu). intros a Ha. apply HA. apply Rlt_div_l; [exact Hs|]. lra.
  - exists (s * MB + mu). intros b Hb. apply HB. apply Rlt_div_r; [exact Hs|]. lra.
  - intros a b Ha Hb. destruct (K _ _ Ha Hb) as [y [Hy Py]]. exists y. split; [|exact Py].
    cbn [fst snd] in *.
    assert (Hy' : is_RInt (fun u => s * f (s * u + mu)) (/ s * a + - mu / s) (/ s * b + - mu / s) y).
    { replace (/ s * a + - mu / s) with ((a - mu) / s) by (field; lra).
      replace (/ s * b + - mu / s) with ((b - mu) / s) by (field; lra). exact Hy. }
    apply (is_RInt_comp_lin (fun u => s * f (s * u + mu)) (/ s) (- mu / s) a b) in Hy'.
    eapply is_RInt_ext; [|exact Hy']. intros t _. cbn beta.
    replace (s * (/ s * t + - mu / s) + mu) with t by (field; lra).
    change (/ s * (s * f t) = f t). field. lra.
Qed.

Theorem C29_exact p mu sigma : (length p <= 2 * n)%nat -> 0 < sigma ->
  exists I, integral (fun t => poly p t * normal_kernel mu sigma t) I /\
    integrate1D (fun t => poly p t * normal_kernel mu sigma t) mu sigma r = sqrtPi / sqrt PI * I.
Proof.
  intros Hp Hs. set (s := sqrt 2 * sigma).
  assert (H2 : sqrt 2 * sqrt 2 = 2) by (apply sqrt_sqrt; lra).
  assert (Hsp : 0 < s) by (unfold s; apply Rmult_lt_0_compat; [apply sqrt_lt_R0; lra|exact Hs]).
  set (q := compose p s mu). destruct (compose_spec p s mu) as [Lq Eq]. fold q in Lq, Eq.
  assert (Hk : forall u, normal_kernel mu sigma (s * u + mu) = exp (- u ^ 2)).
  { intros u. unfold normal_kernel. do 2 f_equal. replace (s * u + mu - mu) with (s * u) by ring.
    unfold s. replace ((sqrt 2 * sigma * u) ^ 2) with ((sqrt 2 * sqrt 2) * sigma ^ 2 * u ^ 2) by ring.
    rewrite H2. field. lra. }
  exists (s * (sqrt PI * sumR (length q) (fun k => nth k q 0 * moment k))). split.
  - refine (integral_affine (fun t => poly p t * normal_kernel mu sigma t) s mu _ Hsp _).
    refine (is_RInt_gen_ext (fun u => poly q u * exp (- u ^ 2)) _ _ _ (poly_integral q)).
    apply filter_forall. intros ab u _. rewrite Hk, Eq. reflexivity.
  - rewrite rule_sum. fold s.
    rewrite (sumR_ext n _ (fun i => sumR (length q) (fun k => sqrtPi * nth k q 0 *
        (entry Q 0 i * entry Q 0 i * nth i lam 0 ^ k)))).
    2:{ intros i Hi. rewrite Hk, <- Eq, poly_sum, exp_Ropp.
        pose proof (exp_pos (nth i lam 0 ^ 2)).
        replace (sqrtPi * entry Q 0 i * entry Q 0 i * (sumR (length q) (fun k => nth k q 0 * nth i lam 0 ^ k)
           * / exp (nth i lam 0 ^ 2)) * exp (nth i lam 0 ^ 2))
          with (sqrtPi * entry Q 0 i * entry Q 0 i * sumR (length q) (fun k => nth k q 0 * nth i lam 0 ^ k)) by (field; lra).
        rewrite <- sumR_scal. apply sumR_ext. intros k _. ring. }
    rewrite sumR_swap.
    rewrite (sumR_ext (length q) _ (fun k => sqrtPi * (nth k q 0 * moment k))).
    2:{ intros k Hk'. rewrite sumR_scal, spectral_moment by lia. ring. }
    rewrite sumR_scal. pose proof (sqrt_lt_R0 PI PI_RGT_0). field. lra.
Qed.
Theorem C29_weights : length (qr_nodes r) = n /\ length (qr_weights r) = n /\
  List.Forall (fun w => 0 < w) (qr_weights r) /\ sumR n (fun i => nth i (qr_weights r) 0) = sqrtPi.
Proof.
  assert (HsP : 0 < sqrtPi) by (unfold sqrtPi; lra).
  split; [rewrite r_nodes; apply (ed_values _ _ _ _ Hed)|]. split; [apply r_weights_length|]. split.
  - apply Forall_forall. intros w Hw. apply (In_nth _ _ 0) in Hw. destruct Hw as (i & Hi & <-). rewrite r_weights_length in Hi.
    rewrite r_weights_nth by auto. pose proof (first_nonzero i Hi) as Nz. rewrite Rmult_assoc. apply Rmult_lt_0_compat; auto.
    destruct (Rtotal_order (entry Q 0 i) 0) as [H|[H|H]]; [nra|contradiction|nra].
  - rewrite (sumR_ext n _ (fun i => sqrtPi * (entry Q 0 i * entry Q 0 i * nth i lam 0 ^ 0))).
    + rewrite sumR_scal, spectral_moment by lia. cbn. ring.
    + intros i Hi. rewrite r_weights_nth by auto. cbn. ring.
Qed.
End Jacobi.
