(** Derivatives of the interpolating functions of a sparse grid. *)
From Coq Require Import List Arith ZArith Bool Lia Reals Lra.
From Coquelicot Require Import Coquelicot.
From Verif Require Import Model.Base Model.Counting Model.Point Model.SparseGrid Model.Vectors Spec.GLMMSpec Spec.Calculus Spec.GridSpec Spec.NodalSpec
  Proofs.ListLemmas Proofs.CountLemmas Proofs.PointLemmas Proofs.GridMain Proofs.GLMMLemmas Proofs.VectorLemmas Proofs.SumLemmas Proofs.CalculusLemmas Proofs.SparseMain Proofs.GridSpan.
Import ListNotations.
Local Open Scope R_scope.

(** ** Products *)
Fixpoint prodR (n : nat) (f : nat -> R) : R := match n with O => 1 | S n' => prodR n' f * f n' end.
Lemma prodR_ext n f g : (forall t, (t < n)%nat -> f t = g t) -> prodR n f = prodR n g.
Proof. induction n as [|n IH]; intros H; cbn; auto. rewrite IH, H by (auto; intros; apply H; lia). reflexivity. Qed.
Lemma prodR_first n f : prodR (S n) f = f 0%nat * prodR n (fun t => f (S t)).
Proof. induction n as [|n IH]; [cbn; ring|]. cbn [prodR] in *. rewrite IH. ring. Qed.

Definition delta (t s : nat) : nat := if Nat.eqb t s then 1 else 0.
Lemma delta_same t : delta t t = 1%nat.
Proof. unfold delta. now rewrite Nat.eqb_refl. Qed.
Lemma delta_other t s : t <> s -> delta t s = 0%nat.
Proof. intros H. unfold delta. destruct (Nat.eqb_spec t s); congruence. Qed.
Definition tabulate {A} (n : nat) (f : nat -> A) : list A := map f (seq 0 n).
Lemma tabulate_length {A} n (f : nat -> A) : length (tabulate n f) = n.
Proof. unfold tabulate. now rewrite map_length, seq_length. Qed.
Lemma nth_tabulate {A} n (f : nat -> A) i d : (i < n)%nat -> nth i (tabulate n f) d = f i.
Proof.
  intros Hi. unfold tabulate. rewrite (nth_map_lt _ _ _ _ 0%nat) by (rewrite seq_length; auto). now rewrite seq_nth.
Qed.

Lemma grad_coordinate d t x : length x = d -> (t < d)%nat ->
  is_gradient d (fun y => nth t y 0) x (tabulate d (fun s => INR (delta t s))).
Proof.
  intros Lx Ht. split; [apply tabulate_length|]. intros e He. exists 1. split; [lra|]. intros h Lh _.
  rewrite (scalar_sum _ h d) by (auto; apply tabulate_length).
  assert (Es : sumR d (fun i => nth i (tabulate d (fun s => INR (delta t s))) 0 * nth i h 0) = nth t h 0).
  { rewrite (sumR_ext d _ (fun i => MatrixSpec.unit_entry t i * nth i h 0)).
    - apply sumR_delta; auto.
    - intros i Hi. rewrite nth_tabulate by auto. unfold delta, MatrixSpec.unit_entry. destruct (Nat.eqb t i); cbn; ring. }
  rewrite Es. assert (Ep : nth t (plus_v x h) 0 = nth t x 0 + nth t h 0) by exact (nth_vadd t x h d Lx Lh Ht).
  rewrite Ep. replace (nth t x 0 + nth t h 0 - nth t x 0 - nth t h 0) with 0 by ring. rewrite Rabs_R0.
  apply Rmult_le_pos; [lra|apply norm1_pos].
Qed.

Section P.
Variables (phi phi1 phi2 : nat -> nat -> R -> R) (k : nat).
Hypothesis D1 : forall l j (y : R), (l <= k)%nat -> (j < 2 ^ l)%nat -> is_derive (phi l j) y (phi1 l j y).
Hypothesis D2 : forall l j (y : R), (l <= k)%nat -> (j < 2 ^ l)%nat -> is_derive (phi1 l j) y (phi2 l j y).
(** The derivative of order e. *)
Definition pe (e : nat) (s : nat * nat) (y : R) : R :=
  match e with O => phi (fst s) (snd s) y | 1%nat => phi1 (fst s) (snd s) y | _ => phi2 (fst s) (snd s) y end.
Definition fine (s : nat * nat) : Prop := (fst s <= k)%nat /\ good s.
Lemma pe_derive e s (y : R) : fine s -> (e <= 1)%nat -> is_derive (pe e s) y (pe (S e) s y).
Proof. intros [H1 H2] He. destruct e as [|[|]]; [apply D1; auto|apply D2; auto|lia]. Qed.

Definition factor (o : nat -> nat) (c : nodes) (y : list R) (t : nat) : R := pe (o t) (nth t c (0, 0)%nat) (nth t y 0).
Lemma tp_prodR c y : length y = length c -> tp phi c y = prodR (length c) (factor (fun _ => 0%nat) c y).
Proof.
  revert y. induction c as [|s c IH]; intros [|v y] L; cbn [length] in L; try discriminate; [reflexivity|].
  cbn [length]. rewrite prodR_first. cbn [tp]. rewrite IH by lia. reflexivity.
Qed.
Lemma grad_prodR d n o c x : length x = d -> (n <= d)%nat -> (forall t, (t < n)%nat -> fine (nth t c (0, 0)%nat)) ->
  (forall t, (t < n)%nat -> (o t <= 1)%nat) ->
  is_gradient d (fun y => prodR n (factor o c y)) x
    (tabulate d (fun s => if Nat.ltb s n then prodR n (factor (fun t => (o t + delta s t)%nat) c x) else 0)).
Proof.
  intros Lx Hn Hc Ho. induction n as [|n IH].
  - eapply grad_ext; [exact Lx|reflexivity| |exact (grad_const d 1 x)].
    apply (vec_ext _ _ d); [apply repeat_length|apply tabulate_length|]. intros i Hi. now rewrite nth_repeat, nth_tabulate.
  - assert (Gt : is_gradient d (fun y => pe (o n) (nth n c (0, 0)%nat) (nth n y 0)) x
       (vscale (pe (S (o n)) (nth n c (0, 0)%nat) (nth n x 0)) (tabulate d (fun s => INR (delta n s))))).
    { apply (grad_comp d (fun y => nth n y 0) x _ (pe (o n) (nth n c (0, 0)%nat))); [apply grad_coordinate; auto; lia|].
      apply pe_derive; auto. }
    specialize (IH ltac:(lia) ltac:(intros; apply Hc; lia) ltac:(intros; apply Ho; lia)).
    eapply grad_ext; [exact Lx| | |exact (grad_mult d _ _ x _ _ Lx IH Gt)]; [reflexivity|].
    apply (vec_ext _ _ d); [apply vadd_length; rewrite vscale_length, ?vscale_length; apply tabulate_length|apply tabulate_length|].
    intros i Hi. rewrite (nth_vadd i _ _ d) by (auto; rewrite !vscale_length; apply tabulate_length).
    rewrite !nth_vscale, !nth_tabulate by auto. cbn [prodR].
    assert (Same : forall n', (n' <= i)%nat -> prodR n' (factor (fun t => (o t + delta i t)%nat) c x) = prodR n' (factor o c x)).
    { intros n' Hn'. apply prodR_ext. intros t Ht. unfold factor. rewrite delta_other by lia. now rewrite Nat.add_0_r. }
    destruct (Nat.ltb_spec i n) as [Hin|Hin].
    + destruct (Nat.ltb_spec i (S n)); [|lia]. rewrite (delta_other n i) by lia. cbn [INR].
      assert (Ef : factor (fun t => (o t + delta i t)%nat) c x n = factor o c x n).
      { unfold factor. rewrite delta_other by lia. now rewrite Nat.add_0_r. }
      rewrite Ef. unfold factor at 4. ring.
    + destruct (Nat.eq_dec n i) as [->|Ne].
      * destruct (Nat.ltb_spec i (S i)); [|lia]. rewrite delta_same. cbn [INR]. rewrite Same by lia.
        unfold factor at 3. rewrite delta_same, Nat.add_1_r. ring.
      * destruct (Nat.ltb_spec i (S n)); [lia|]. rewrite (delta_other n i) by lia. cbn [INR]. ring.
Qed.
Definition ord (l : list nat) (t : nat) : nat := fold_right (fun s a => (delta s t + a)%nat) 0%nat l.
(** The partial derivative of the product in the directions l. *)
Definition pd (d : nat) (l : list nat) (c : nodes) (y : list R) : R := prodR d (factor (ord l) c y).
Lemma grad_pd d l c x : length x = d -> (length l <= 1)%nat -> (forall t, (t < d)%nat -> fine (nth t c (0, 0)%nat)) ->
  is_gradient d (pd d l c) x (tabulate d (fun s => pd d (s :: l) c x)).
Proof.
  intros Lx Ll Hc. eapply grad_ext; [exact Lx|reflexivity| |apply (grad_prodR d d (ord l) c x); auto].
  - apply (vec_ext _ _ d); try apply tabulate_length. intros i Hi. rewrite !nth_tabulate by auto.
    destruct (Nat.ltb_spec i d); [|lia]. apply prodR_ext. intros t Ht. unfold factor. cbn [ord fold_right]. now rewrite Nat.add_comm.
  - intros t Ht. destruct l as [|s [|]]; cbn in *; try lia. unfold delta. destruct (Nat.eqb s t); lia.
Qed.

(** Sums of these. *)
Lemma grad_sum d {A} (F : A -> list R -> R) (G : A -> nat -> R) x l : length x = d ->
  (forall a, In a l -> is_gradient d (F a) x (tabulate d (G a))) ->
  is_gradient d (fun y => rsum (map (fun a => F a y) l)) x (tabulate d (fun s => rsum (map (fun a => G a s) l))).
Proof.
  intros Lx. induction l as [|a l IH]; intros H.
  - eapply grad_ext; [exact Lx|reflexivity| |exact (grad_const d 0 x)].
    apply (vec_ext _ _ d); [apply repeat_length|apply tabulate_length|]. intros i Hi. now rewrite nth_repeat, nth_tabulate.
  - eapply grad_ext; [exact Lx| | |exact (grad_plus d _ _ x _ _ (H a (or_introl eq_refl)) (IH (fun a' Ha => H a' (or_intror Ha))))]; [reflexivity|].
    apply (vec_ext _ _ d); [apply vadd_length; apply tabulate_length|apply tabulate_length|]. intros i Hi.
    rewrite (nth_vadd i _ _ d) by (auto; apply tabulate_length). rewrite !nth_tabulate by auto. reflexivity.
Qed.
Lemma grad_scaled d f x G a : length x = d -> is_gradient d f x (tabulate d G) ->
  is_gradient d (fun y => a * f y) x (tabulate d (fun s => a * G s)).
Proof.
  intros Lx H. eapply grad_ext; [exact Lx|reflexivity| |exact (grad_scale d f x _ a H)].
  apply (vec_ext _ _ d); [rewrite vscale_length; apply tabulate_length|apply tabulate_length|]. intros i Hi.
  now rewrite nth_vscale, !nth_tabulate.
Qed.
(** The sum with all products differentiated. *)
Definition dsum (d : nat) (cs : list R) (cells : list nodes) (l : list nat) (y : list R) : R :=
  rsum (map (fun i => val cs i * pd d l (nth i cells []) y) (seq 0 (length cells))).
Lemma dsum_smooth d cs cells : (forall c, In c cells -> length c = d /\ forall s, In s c -> fine s) ->
  smooth d (dsum d cs cells []) (fun y => tabulate d (fun t => dsum d cs cells [t] y))
    (fun y => tabulate d (fun r => tabulate d (fun s => dsum d cs cells [s; r] y))).
Proof.
  intros Hc.
  assert (G : forall l x, length x = d -> (length l <= 1)%nat -> is_gradient d (dsum d cs cells l) x (tabulate d (fun s => dsum d cs cells (s :: l) x))).
  { intros l x Lx Ll. unfold dsum. apply (grad_sum d (fun i y => val cs i * pd d l (nth i cells []) y)
      (fun i s => val cs i * pd d (s :: l) (nth i cells []) x) x (seq 0 (length cells)) Lx).
    intros i Hi. apply in_seq in Hi. apply grad_scaled; auto. apply grad_pd; auto. intros t Ht.
    destruct (Hc (nth i cells [])) as [Lc Fc]; [apply nth_In; lia|]. apply Fc. apply nth_In. lia. }
  constructor.
  - intros x Lx. apply G; auto.
  - intros x Lx. apply tabulate_length.
  - intros x i Lx Hi. rewrite nth_tabulate by auto. eapply grad_ext; [exact Lx| |reflexivity|apply (G [i] x Lx); auto].
    intros y Ly. now rewrite nth_tabulate.
  - intros x i j Lx Hi Hj. rewrite !(nth_tabulate d _ i), !(nth_tabulate d _ j) by auto. rewrite !nth_tabulate by auto.
    unfold dsum. apply rsum_ext. intros a Ha. f_equal. apply prodR_ext. intros t Ht. unfold factor. f_equal. cbn. lia.
Qed.
End P.

(** ** What is computed *)
Lemma tabulate_ext {A} n (f g : nat -> A) : (forall i, (i < n)%nat -> f i = g i) -> tabulate n f = tabulate n g.
Proof. intros H. unfold tabulate. apply map_ext_in. intros i Hi. apply in_seq in Hi. apply H. lia. Qed.
Lemma map_tabulate {A B} n (f : nat -> A) (g : A -> B) : map g (tabulate n f) = tabulate n (fun i => g (f i)).
Proof. unfold tabulate. now rewrite map_map. Qed.
Lemma combine_tabulate {A} n (f : nat -> A) : combine (seq 0 n) (tabulate n f) = tabulate n (fun i => (i, f i)).
Proof.
  unfold tabulate. generalize (seq 0 n). induction l as [|a l IH]; cbn; [reflexivity|]. now rewrite IH.
Qed.
Lemma repeat_tabulate {A} n (a : A) : repeat a n = tabulate n (fun _ => a).
Proof.
  unfold tabulate. generalize 0%nat. induction n as [|n IH]; intros s; cbn; [reflexivity|]. now rewrite <- (IH (S s)).
Qed.
Lemma vadd_tabulate n f g : SparseGrid.vadd (tabulate n f) (tabulate n g) = tabulate n (fun i => f i + g i).
Proof.
  unfold SparseGrid.vadd, tabulate. generalize (seq 0 n). induction l as [|a l IH]; cbn; [reflexivity|]. now rewrite IH.
Qed.
Lemma madd_tabulate n f g : SparseGrid.madd (tabulate n f) (tabulate n g) = tabulate n (fun i => SparseGrid.vadd (f i) (g i)).
Proof.
  unfold SparseGrid.madd, tabulate. generalize (seq 0 n). induction l as [|a l IH]; cbn; [reflexivity|]. now rewrite IH.
Qed.

Lemma prodR_factor phi phi1 phi2 i o c y : prodR (S i) (factor phi phi1 phi2 o c y) =
  prodR i (factor phi phi1 phi2 o c y) * pe phi phi1 phi2 (o i) (nth i c (0, 0)%nat) (nth i y 0).
Proof. reflexivity. Qed.

Section C.
Variables (b : basis) (k : nat) (D : R -> Prop) (xk : nat -> nat -> R) (phi phi1 phi2 : nat -> nat -> R -> R).
Hypothesis TB : total_basis b k D xk phi.
Hypothesis SB : smooth_basis b k D phi phi1 phi2.
Variable d : nat.
Hypothesis Hd : (0 < d)%nat.
Notation N := (findNumGridPoints d k).
Notation pe := (pe phi phi1 phi2).
Notation factor := (factor phi phi1 phi2).
Notation pd := (pd phi phi1 phi2).

Lemma pe_ok e s y : fine k s -> D y -> (e <= 2)%nat ->
  (match e with O => b_evaluate b | 1%nat => b_evaluateDerivative b | _ => b_evaluateSecondDerivative b end) y (fst s) (snd s) = Ok (pe e s y).
Proof.
  intros [H1 H2] Dy He. destruct (sb_deriv _ _ _ _ _ _ SB (fst s) (snd s) y H1 H2 Dy) as (E0 & E1 & E2).
  destruct e as [|[|[|]]]; auto.
Qed.
Section Point.
Variables (p : point) (c : nodes) (xs : list R).
Hypothesis HL : p_levels p = map fst c.
Hypothesis HP : p_positions p = map snd c.
Hypothesis Lc : length c = d.
Hypothesis Lx : length xs = d.
Hypothesis DX : List.Forall D xs.
Hypothesis Fc : forall s, In s c -> fine k s.
Lemma gets t : (t < d)%nat -> vec_get xs t = Ok (nth t xs 0) /\ vec_get (p_levels p) t = Ok (fst (nth t c (0, 0)%nat)) /\
  vec_get (p_positions p) t = Ok (snd (nth t c (0, 0)%nat)) /\ fine k (nth t c (0, 0)%nat) /\ D (nth t xs 0).
Proof.
  intros Ht. rewrite HL, HP. split; [apply vec_get_nth; lia|].
  split; [rewrite (vec_get_nth _ _ 0%nat) by (rewrite map_length; lia); f_equal; exact (map_nth fst c (0, 0)%nat t)|].
  split; [rewrite (vec_get_nth _ _ 0%nat) by (rewrite map_length; lia); f_equal; exact (map_nth snd c (0, 0)%nat t)|].
  split; [apply Fc, nth_In; lia|]. rewrite List.Forall_forall in DX. apply DX, nth_In. lia.
Qed.
Lemma basisDerivative_spec : computeBasisDerivative p xs b = Ok (tabulate d (fun r => pd d [r] c xs)).
Proof.
  unfold computeBasisDerivative. rewrite HL, map_length, Lc. rewrite <- HL.
  destruct (foldM_seq_inv (fun ret t =>
    xt <- vec_get xs t ;; lev <- vec_get (p_levels p) t ;; pos <- vec_get (p_positions p) t ;;
    basisValue <- b_evaluate b xt lev pos ;; basisDerivative <- b_evaluateDerivative b xt lev pos ;;
    Ok (map (fun q => if Nat.eqb (fst q) t then snd q * basisDerivative else snd q * basisValue) (combine (seq 0 d) ret)))
    (fun i ret => ret = tabulate d (fun r => prodR i (factor (ord [r]) c xs))) d 0 (repeat 1 d)) as (ret & E & Hr).
  - rewrite repeat_tabulate. reflexivity.
  - intros t ret Ht ->. destruct (gets t ltac:(lia)) as (E1 & E2 & E3 & F & Dt). rewrite E1, E2, E3. cbn [bind].
    rewrite (pe_ok 0 _ _ F Dt ltac:(lia)), (pe_ok 1 _ _ F Dt ltac:(lia)). cbn [bind]. eexists. split; [reflexivity|].
    rewrite combine_tabulate, map_tabulate. apply tabulate_ext. intros r Hr. cbn [fst snd]. rewrite prodR_factor.
    assert (Eo : ord [r] t = if Nat.eqb r t then 1%nat else 0%nat) by (cbn; unfold delta; destruct (Nat.eqb r t); reflexivity).
    rewrite Eo. destruct (Nat.eqb r t); reflexivity.
  - rewrite E. now rewrite Hr.
Qed.
Lemma basisSecond_spec : computeBasisSecondDerivative p xs b = Ok (tabulate d (fun r => tabulate d (fun s => pd d [s; r] c xs))).
Proof.
  unfold computeBasisSecondDerivative. rewrite HL, map_length, Lc. rewrite <- HL.
  match goal with |- bind (foldM ?step _ _) _ = _ =>
  destruct (foldM_seq_inv step
    (fun i ret => ret = tabulate d (fun r => tabulate d (fun s => if (s <? r + 1)%nat then prodR i (factor (ord [s; r]) c xs) else 1))) d 0 (repeat (repeat 1 d) d)) as (ret & E & Hr) end.
  - rewrite !repeat_tabulate. apply tabulate_ext. intros r Hr. apply tabulate_ext. intros s Hs. destruct (s <? r + 1)%nat; reflexivity.
  - intros t ret Ht ->. destruct (gets t ltac:(lia)) as (E1 & E2 & E3 & F & Dt). rewrite E1, E2, E3. cbn [bind].
    rewrite (pe_ok 0 _ _ F Dt ltac:(lia)), (pe_ok 1 _ _ F Dt ltac:(lia)), (pe_ok 2 _ _ F Dt ltac:(lia)). cbn [bind].
    eexists. split; [reflexivity|]. rewrite combine_tabulate, map_tabulate. apply tabulate_ext. intros r Hr.
    cbn [fst snd]. rewrite combine_tabulate, map_tabulate. apply tabulate_ext. intros s Hs. cbn [fst snd].
    destruct (s <? r + 1)%nat; [|reflexivity]. rewrite prodR_factor.
    assert (Eo : ord [s; r] t = ((if Nat.eqb s t then 1 else 0) + (if Nat.eqb r t then 1 else 0))%nat) by (cbn; unfold delta; lia).
    rewrite Eo. destruct (Nat.eqb r t), (Nat.eqb s t); reflexivity.
  - rewrite E. cbn [bind]. rewrite Hr. f_equal. apply tabulate_ext. intros r Hr'. apply tabulate_ext. intros s Hs.
    rewrite (nth_tabulate d _ (Nat.max r s)) by lia. rewrite nth_tabulate by lia.
    destruct (Nat.ltb_spec (Nat.min r s) (Nat.max r s + 1)); [|lia]. unfold GridSmooth.pd. apply prodR_ext. intros t Ht.
    unfold GridSmooth.factor. f_equal. destruct (Nat.le_ge_cases r s).
    + rewrite Nat.min_l, Nat.max_r by lia. cbn. lia.
    + rewrite Nat.min_r, Nat.max_l by lia. reflexivity.
Qed.
End Point.

Definition cells : list nodes := map (pairs d) (seq 0 N).
Lemma cells_length : length cells = N.
Proof. unfold cells. now rewrite map_length, seq_length. Qed.
Lemma nth_cells i : (i < N)%nat -> nth i cells [] = pairs d i.
Proof. intros Hi. unfold cells. rewrite (nth_map_lt _ _ _ _ 0%nat) by (rewrite seq_length; auto). now rewrite seq_nth. Qed.
Notation dsum := (dsum phi phi1 phi2).
Lemma cells_fine c : In c cells -> length c = d /\ forall s, In s c -> fine k s.
Proof.
  intros H. unfold cells in H. apply in_map_iff in H. destruct H as (i & <- & Hi). apply in_seq in Hi.
  destruct (pairs_spec k d Hd i ltac:(lia)) as (G & _). split; [eapply gpc_len; eauto|]. intros s Hs. exact (gpc_k k d Hd _ G s Hs).
Qed.
Lemma interp_sum_dsum cs y : length y = d -> interp_sum k phi d cs y = dsum d cs cells [] y.
Proof.
  intros Ly. unfold interp_sum, GridSmooth.dsum. rewrite cells_length. apply rsum_ext. intros i Hi. apply in_seq in Hi.
  destruct (pairs_spec k d Hd i ltac:(lia)) as (G & _). assert (Lp := gpc_len k d _ G).
  rewrite nth_cells by lia. f_equal. rewrite (tp_prodR phi phi1 phi2) by congruence. rewrite Lp. reflexivity.
Qed.
Lemma dsum_step g l y i : (i < N)%nat ->
  rsum (map (fun j => val (sg_coefficients g) j * pd d l (nth j cells []) y) (seq 0 i)) +
    nth i (sg_coefficients g) 0 * pd d l (pairs d i) y =
  rsum (map (fun j => val (sg_coefficients g) j * pd d l (nth j cells []) y) (seq 0 (S i))).
Proof.
  intros Hi. rewrite seq_S, map_app, rsum_app. cbn [map rsum fold_right Nat.add]. rewrite nth_cells by auto. unfold val. ring.
Qed.
Lemma advance_next i p : (i < N)%nat -> advances i (point_new d) = Ok p -> exists q,
  (if (i <? N - 1)%nat then advance p else Ok p) = Ok q /\ ((S i < N)%nat -> advances (S i) (point_new d) = Ok q).
Proof.
  intros Hi Ep. destruct (Nat.ltb_spec i (N - 1)).
  - destruct (advances_spec d (S i) Hd) as (q & Eq & _). pose proof Eq as Eq2. cbn [advances] in Eq. rewrite Ep in Eq.
    cbn [bind] in Eq. exists q. auto.
  - exists p. split; auto. intros; lia.
Qed.

Lemma interpD_spec g m xs : sg_d g = d -> size g = N -> sg_bound g = Some m -> length xs = d -> List.Forall D xs ->
  interpolateDerivative g xs b = Ok (if Rlt_dec (dsum d (sg_coefficients g) cells [] xs) m
     then tabulate d (fun t => dsum d (sg_coefficients g) cells [t] xs) else repeat 0 d).
Proof.
  intros Hgd Hs Hb Hx HD. unfold interpolateDerivative. rewrite (interpolate_sum b k D xk phi TB d Hd g m) by auto. cbn [bind].
  rewrite Hb, interp_sum_dsum by auto. set (v := dsum d (sg_coefficients g) cells [] xs).
  assert (Hif : forall (X : Type) (A B : X), (if Rlt_dec (Rmin v m) m then A else B) = if Rlt_dec v m then A else B).
  { intros X A B. assert (Hm : Rmin v m < m <-> v < m) by (unfold Rmin; destruct (Rle_dec v m); lra).
    destruct (Rlt_dec (Rmin v m) m), (Rlt_dec v m); auto; exfalso; tauto. }
  rewrite Hif. destruct (Rlt_dec v m); [|now rewrite Hgd]. rewrite Hs, Hgd. unfold size in Hs.
  destruct (foldM_seq_inv (interpD_step g xs b)
    (fun i s => fst s = tabulate d (fun t => rsum (map (fun j => val (sg_coefficients g) j * pd d [t] (nth j cells []) xs) (seq 0 i))) /\
       ((i < N)%nat -> advances i (point_new d) = Ok (snd s))) N 0 (repeat 0 d, point_new d))
    as ((ret & p) & E & H1 & H2).
  - cbn [fst snd]. split; auto. rewrite repeat_tabulate. reflexivity.
  - intros i (ret, p) Hi (A1 & A2). cbn [fst snd] in A1, A2. specialize (A2 ltac:(lia)).
    unfold interpD_step. destruct (pairs_spec k d Hd i ltac:(lia)) as (G & _ & Ep).
    destruct (advance_next i p ltac:(lia) A2) as (q & Eq & Hq). rewrite Ep in A2. injection A2 as A2. subst p.
    rewrite (vec_get_nth _ i 0) by lia. cbn [bind].
    rewrite (basisDerivative_spec _ (pairs d i) xs); auto; [|now apply (gpc_len k)|intros s Hs'; exact (gpc_k k d Hd _ G s Hs')].
    cbn [bind]. unfold size. rewrite Hs, Eq. cbn [bind]. eexists. split; [reflexivity|]. cbn [fst snd]. split; auto.
    rewrite A1, map_tabulate, vadd_tabulate. apply tabulate_ext. intros t Ht. apply dsum_step. lia.
  - rewrite E. cbn [bind]. f_equal. cbn [fst] in H1. cbn [fst]. rewrite H1. apply tabulate_ext. intros t Ht. unfold GridSmooth.dsum. now rewrite cells_length.
Qed.
Lemma interpD2_spec g m xs : sg_d g = d -> size g = N -> sg_bound g = Some m -> length xs = d -> List.Forall D xs ->
  interpolateSecondDerivative g xs b = Ok (if Rlt_dec (dsum d (sg_coefficients g) cells [] xs) m
     then tabulate d (fun r => tabulate d (fun s => dsum d (sg_coefficients g) cells [s; r] xs)) else repeat (repeat 0 d) d).
Proof.
  intros Hgd Hs Hb Hx HD. unfold interpolateSecondDerivative. rewrite (interpolate_sum b k D xk phi TB d Hd g m) by auto. cbn [bind].
  rewrite Hb, interp_sum_dsum by auto. set (v := dsum d (sg_coefficients g) cells [] xs).
  assert (Hif : forall (X : Type) (A B : X), (if Rlt_dec (Rmin v m) m then A else B) = if Rlt_dec v m then A else B).
  { intros X A B. assert (Hm : Rmin v m < m <-> v < m) by (unfold Rmin; destruct (Rle_dec v m); lra).
    destruct (Rlt_dec (Rmin v m) m), (Rlt_dec v m); auto; exfalso; tauto. }
  rewrite Hif. destruct (Rlt_dec v m); [|now rewrite Hgd]. rewrite Hs, Hgd. unfold size in Hs.
  destruct (foldM_seq_inv (interpD2_step g xs b)
    (fun i s => fst s = tabulate d (fun r => tabulate d (fun t => rsum (map (fun j => val (sg_coefficients g) j * pd d [t; r] (nth j cells []) xs) (seq 0 i)))) /\
       ((i < N)%nat -> advances i (point_new d) = Ok (snd s))) N 0 (repeat (repeat 0 d) d, point_new d))
    as ((ret & p) & E & H1 & H2).
  - cbn [fst snd]. split; auto. rewrite !repeat_tabulate. reflexivity.
  - intros i (ret, p) Hi (A1 & A2). cbn [fst snd] in A1, A2. specialize (A2 ltac:(lia)).
    unfold interpD2_step. destruct (pairs_spec k d Hd i ltac:(lia)) as (G & _ & Ep).
    destruct (advance_next i p ltac:(lia) A2) as (q & Eq & Hq). rewrite Ep in A2. injection A2 as A2. subst p.
    rewrite (vec_get_nth _ i 0) by lia. cbn [bind].
    rewrite (basisSecond_spec _ (pairs d i) xs); auto; [|now apply (gpc_len k)|intros s Hs'; exact (gpc_k k d Hd _ G s Hs')].
    cbn [bind]. unfold size. rewrite Hs, Eq. cbn [bind]. eexists. split; [reflexivity|]. cbn [fst snd]. split; auto.
    rewrite A1, map_tabulate, madd_tabulate. apply tabulate_ext. intros r' Hr'. rewrite map_tabulate, vadd_tabulate. apply tabulate_ext. intros t Ht. apply dsum_step. lia.
  - rewrite E. cbn [bind]. f_equal. cbn [fst] in H1. cbn [fst]. rewrite H1. apply tabulate_ext. intros r' Hr'. apply tabulate_ext. intros t Ht. unfold GridSmooth.dsum. now rewrite cells_length.
Qed.
End C.
