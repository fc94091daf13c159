(** The coefficients of a sparse grid are determined by the values at its points. *)
From Coq Require Import List Arith ZArith Bool Lia Reals Lra Permutation.
From Verif Require Import Model.Base Model.Counting Model.Point Model.SparseGrid Spec.GridSpec Spec.NodalSpec
  Proofs.ListLemmas Proofs.CountLemmas Proofs.PointLemmas Proofs.GridMain Proofs.SparseMain.
Import ListNotations.
Local Open Scope R_scope.

Notation nodes := (list (nat * nat)).
Section S.
Variables (b : basis) (k : nat) (D : R -> Prop) (xk : nat -> nat -> R) (phi : nat -> nat -> R -> R).
Hypothesis TB : total_basis b k D xk phi.
Hypothesis NB : nodal k xk phi.
Variable d : nat.
Hypothesis Hd : (0 < d)%nat.
Notation N := (findNumGridPoints d k).
Notation gpc := (gpc k d).
Notation xn := (xn xk).
Notation tp := (tp phi).
Notation Ssum := (interp_sum k phi d).

Lemma tp_product c y : tp c y = product phi (map fst c) (map snd c) y.
Proof.
  unfold product. rewrite combine_map. revert y. induction c as [|s c IH]; intros [|v y]; cbn; auto. rewrite IH. reflexivity.
Qed.
Lemma tp_own c : (forall s, In s c -> (fst s <= k)%nat /\ good s) -> tp c (map xn c) = 1.
Proof.
  induction c as [|s c IH]; intros H; cbn; auto. rewrite IH by (intros; apply H; now right).
  destruct (H s (or_introl eq_refl)) as [Hk Hg]. unfold ph, SparseMain.xn. rewrite NB by auto. rewrite !Nat.eqb_refl. cbn. ring.
Qed.
Lemma tp_other q c : map fst q = map fst c -> q <> c -> (forall s, In s q -> (fst s <= k)%nat /\ good s) ->
  (forall s, In s c -> (fst s <= k)%nat /\ good s) -> tp q (map xn c) = 0.
Proof.
  revert c. induction q as [|s q IH]; intros [|r c] E Hn Hq Hc; cbn in E; try discriminate; [congruence|].
  injection E as E1 E2. cbn [SparseMain.tp map].
  destruct (Nat.eq_dec (snd s) (snd r)) as [Es|Es].
  - rewrite IH; [ring|auto| | |].
    + intros ->. apply Hn. f_equal. destruct s, r; cbn in *; congruence.
    + intros; apply Hq; now right. + intros; apply Hc; now right.
  - destruct (Hq s (or_introl eq_refl)) as [Hk Hg]. destruct (Hc r (or_introl eq_refl)) as [Hk' Hg'].
    unfold ph, SparseMain.xn. rewrite NB by (auto; lia). replace (fst r =? fst s)%nat with true by (symmetry; now apply Nat.eqb_eq).
    destruct (Nat.eqb_spec (snd r) (snd s)); [congruence|]. cbn. ring.
Qed.
Lemma under_levels q c : under q c -> list_sum (map fst q) = list_sum (map fst c) -> map fst q = map fst c.
Proof.
  induction 1 as [|s r q c H F IH]; cbn; auto. intros E. pose proof (under_sum d Hd q c F). apply below_In in H.
  unfold list_sum in *. f_equal; [lia|]. apply IH. lia.
Qed.
Lemma En_inj v w : (forall c, gpc c -> En xk phi d c v = En xk phi d c w) -> forall c, gpc c -> v c = w c.
Proof.
  intros HE. enough (G : forall n c, (list_sum (map fst c) < n)%nat -> gpc c -> v c = w c) by (intros c; apply (G (S (list_sum (map fst c)))); lia).
  induction n as [|n IH]; intros c Hn Gc; [lia|]. specialize (HE c Gc).
  assert (K : En xk phi d c v - En xk phi d c w = v c - w c).
  { rewrite <- (gpc_len k d c Gc). rewrite !En_box.
    assert (Sub : forall l F G, rsum (map F l) - rsum (map G l) = rsum (map (fun q : nodes => F q - G q) l)).
    { induction l as [|a l IHl]; intros F G; unfold rsum in *; cbn; [lra|]. rewrite <- IHl. lra. }
    rewrite Sub. rewrite (rsum_subset (list_eq_dec pair_dec) _ (box c) [c]).
    - cbn. rewrite tp_own by (now apply gpc_k with (d := d)). ring.
    - apply box_NoDup.
    - repeat constructor; auto.
    - intros q [<-|[]]. apply box_In. apply under_refl. eapply gpc_good; eauto.
    - intros q Hq Nq. apply box_In in Hq. assert (Gq : gpc q) by (eapply under_gpc; eauto).
      assert (q <> c) by (intros ->; apply Nq; now left).
      pose proof (under_sum d Hd q c Hq) as Hs. destruct (Nat.eq_dec (list_sum (map fst q)) (list_sum (map fst c))) as [E|E].
      + rewrite (tp_other q c); auto; [ring|now apply under_levels|now apply gpc_k with (d := d)|now apply gpc_k with (d := d)].
      + rewrite (IH q) by (auto; lia). ring. }
  lra.
Qed.

(** The grid made from f. *)
Lemma grid_facts f : exists g m, grid_of f d b = Ok g /\ sg_d g = d /\ size g = N /\ sg_bound g = Some m /\
  (forall c, gpc c -> Ssum (sg_coefficients g) (map xn c) = f (map xn c)) /\
  (forall c, gpc c -> f (map xn c) <= m) /\ (exists c, gpc c /\ f (map xn c) = m).
Proof.
  destruct (grid_spec b k D xk phi TB d Hd f) as (g & m & css & E & D0 & S0 & B0 & L & Ec & HS & V0 & M0).
  assert (Ev : forall c, gpc c -> V (nth 0 css []) c = f (map xn c) /\ f (map xn c) <= m).
  { intros c G. unfold V. destruct (V0 (ix (map fst c) (map snd c))) as [V1 V2]; [now apply gp_ix with (d := d) (k := k)|].
    rewrite pairs_ix with (k := k) (d := d) in V1 by auto. split; [exact V1|]. rewrite <- V1. exact V2. }
  exists g, m. split; [exact E|]. split; [exact D0|]. split; [exact S0|]. split; [exact B0|]. split; [|split].
  - intros c G. rewrite (interp_En k xk phi d Hd NB) by auto. rewrite Ec.
    rewrite <- (hier_En k xk phi d Hd NB css L HS c G d (le_n d)). now apply Ev.
  - intros c G. now apply Ev.
  - destruct M0 as (i & Hi & Mi). destruct (V0 i Hi) as [V1 _]. exists (pairs d i). split; [now apply pairs_spec|]. congruence.
Qed.
Lemma interpolate_sum g m y : sg_d g = d -> size g = N -> sg_bound g = Some m -> length y = d -> List.Forall D y ->
  interpolate g y b = Ok (Rmin (Ssum (sg_coefficients g) y) m).
Proof.
  intros D0 S0 B0 Ly Dy. unfold interpolate. destruct (interp_spec b k D xk phi TB d Hd g y D0 S0 Ly Dy) as (p & ->).
  cbn [bind fst]. now rewrite B0.
Qed.
(** Coefficients are unique. *)
Lemma coefficients_unique cs cs' : (forall c, gpc c -> Ssum cs (map xn c) = Ssum cs' (map xn c)) -> forall y, Ssum cs y = Ssum cs' y.
Proof.
  intros H y. unfold interp_sum. apply rsum_ext. intros i Hi. apply in_seq in Hi. f_equal.
  destruct (pairs_spec k d Hd i ltac:(lia)) as (G & E & _).
  assert (K : V cs (pairs d i) = V cs' (pairs d i)).
  { apply En_inj; auto. intros c Gc. rewrite <- !(interp_En k xk phi d Hd NB) by auto. now apply H. }
  unfold V in K. rewrite E in K. exact K.
Qed.
Lemma sum_upd cs i a y : (i < N)%nat -> length cs = N ->
  Ssum (upd cs i (val cs i + a)) y = Ssum cs y + a * tp (pairs d i) y.
Proof.
  intros Hi Lc. unfold interp_sum.
  assert (G : forall n s, (s + n <= N)%nat -> rsum (map (fun j => val (upd cs i (val cs i + a)) j * tp (pairs d j) y) (seq s n)) =
     rsum (map (fun j => val cs j * tp (pairs d j) y) (seq s n)) + (if ((s <=? i) && (i <? s + n))%nat then a * tp (pairs d i) y else 0)).
  { induction n as [|n IH]; intros s Hs; cbn [seq map rsum fold_right].
    - destruct (Nat.leb_spec s i), (Nat.ltb_spec i (s + 0)); cbn [andb]; try lia; lra.
    - unfold rsum in IH. rewrite IH by lia. unfold val at 1. rewrite nth_upd by lia.
      destruct (Nat.eqb_spec i s) as [->|Ne].
      + destruct (Nat.leb_spec (S s) s), (Nat.leb_spec s s), (Nat.ltb_spec s (s + S n)); cbn [andb]; try lia; unfold val; lra.
      + destruct (Nat.leb_spec (S s) i), (Nat.leb_spec s i), (Nat.ltb_spec i (S s + n)), (Nat.ltb_spec i (s + S n)); cbn [andb]; try lia; unfold val; lra. }
  rewrite G by lia. destruct (Nat.leb_spec 0 i), (Nat.ltb_spec i (0 + N)); cbn [andb]; try lia. reflexivity.
Qed.
Lemma combination_sum terms : List.Forall (fun t => grid_point d k (fst (snd t)) (snd (snd t))) terms ->
  exists cs, length cs = N /\ forall y, Ssum cs y = combination phi terms y.
Proof.
  induction terms as [|[a [ls ps]] terms IH]; intros H.
  - exists (repeat 0 N). split; [apply repeat_length|]. intros y. cbn. unfold interp_sum. apply rsum_zero. intros i Hi.
    unfold val. rewrite nth_repeat. ring.
  - inversion H as [|t l G Hr]; subst. destruct (IH Hr) as (cs & Lc & E). cbn [fst snd] in G.
    assert (C : map fst (combine ls ps) = ls /\ map snd (combine ls ps) = ps).
    { destruct G as (L & L' & _). eapply map_combine; eauto; try congruence. }
    destruct C as [C1 C2]. set (c := combine ls ps) in *.
    assert (Gc : gpc c) by (unfold SparseMain.gpc; now rewrite C1, C2).
    exists (upd cs (ix ls ps) (val cs (ix ls ps) + a)). split; [now rewrite upd_length|]. intros y.
    rewrite sum_upd; auto; [|now apply gp_ix with (d := d) (k := k)]. rewrite E. cbn.
    rewrite <- C1, <- C2. rewrite pairs_ix with (k := k) (d := d) by auto. rewrite tp_product. rewrite C1, C2. unfold combination. apply Rplus_comm.
Qed.
End S.

Lemma C49_span_main b k D xk phi d f terms : total_basis b k D xk phi -> nodal k xk phi ->
  List.Forall (fun t => grid_point d k (fst (snd t)) (snd (snd t))) terms ->
  (forall ls ps, grid_point d k ls ps -> f (place xk ls ps) = combination phi terms (place xk ls ps)) ->
  exists g m, grid_of f d b = Ok g /\
    (forall ls ps, grid_point d k ls ps -> f (place xk ls ps) <= m) /\ (exists ls ps, grid_point d k ls ps /\ f (place xk ls ps) = m) /\
    forall y, length y = d -> List.Forall D y -> interpolate g y b = Ok (Rmin (combination phi terms y) m).
Proof.
  intros TB NB HT Hf. destruct (Nat.eq_dec d 0) as [->|Hn].
  - assert (G0 : grid_point 0 k [] []) by (repeat split; simpl; auto; lia).
    assert (Gu : forall ls ps, grid_point 0 k ls ps -> ls = [] /\ ps = []) by (intros [|] [|] (A & B & _); try discriminate; auto).
    eexists. exists (f []). split; [reflexivity|]. split; [|split].
    + intros ls ps G. destruct (Gu ls ps G) as [-> ->]. cbn. lra.
    + exists [], []. split; auto.
    + intros [|] Ly _; [|discriminate]. specialize (Hf [] [] G0). unfold place in Hf. cbn in Hf. rewrite <- Hf.
      unfold interpolate. simpl. do 2 f_equal. ring.
  - destruct (grid_facts b k D xk phi TB NB d ltac:(lia) f) as (g & m & E & D0 & S0 & B0 & V1 & V2 & c0 & G0 & V3).
    destruct (combination_sum k phi d ltac:(lia) terms HT) as (cs & Lc & Ec).
    assert (Hc : forall ls ps, grid_point d k ls ps -> map fst (combine ls ps) = ls /\ map snd (combine ls ps) = ps).
    { intros ls ps (L & L' & _). eapply map_combine; eauto; try congruence. }
    assert (Gc : forall ls ps, grid_point d k ls ps -> gpc k d (combine ls ps)).
    { intros ls ps G. unfold gpc. destruct (Hc ls ps G) as [-> ->]. exact G. }
    exists g, m. split; [exact E|]. split; [|split].
    + intros ls ps G. exact (V2 _ (Gc ls ps G)).
    + exists (map fst c0), (map snd c0). split; [exact G0|]. now rewrite place_xn.
    + intros y Ly Dy. rewrite (interpolate_sum b k D xk phi TB d ltac:(lia) g m) by auto. do 2 f_equal.
      rewrite <- Ec. apply (coefficients_unique k xk phi NB d ltac:(lia)). intros c G. rewrite V1 by auto. rewrite Ec.
      rewrite <- place_xn. apply Hf. exact G.
Qed.
