(** Cases for C58: sums over nodes, stored with an error. *)
From Coq Require Import String List ZArith Bool Arith Lia Reals Lra.
From Verif Require Import Model.Base Model.Family Model.GLMM Model.SplitFrame Model.Vectors Model.Mixed Model.MultiNormal
  Model.NormalSig Model.ClusterGraph Model.LfunSR Spec.Numbers Spec.FamilySpec Spec.GLMMSpec Spec.SplitSpec Spec.ISSpec
  Spec.BeliefSpec Spec.IntegralSpec Spec.TreeSpec Spec.MixedSpec Spec.DensitySpec Spec.TotalSpec Spec.LfunSpec Spec.LogSum Spec.Toy Spec.ErrorSpec
  Proofs.ListLemmas Proofs.SplitCases Proofs.MessageLemmas Proofs.DensityJoint Proofs.JointCases Proofs.TotalMain Proofs.LfunMain Proofs.LfunCases Proofs.ErrorMain.
Import ListNotations.
Local Open Scope R_scope.

(** The error depends on the point, and is at most a tenth. *)
Definition rough_sum (nodes : list (R * R)) (f : rvec -> outcome R) (d : rvec -> outcome rvec) (d2 : rvec -> outcome rmat)
    (k : nat) (n : mnormal) (items : list Z) : outcome grid :=
  Ok (items, fun x => logsum nodes (fun u => from_ok (f (insert_at u k x))) + sin (fold_right Rplus 1 x) / 10).
Definition rough_setup (nodes : list (R * R)) := find_lfun_SR inv_all det_small (fun _ => true) grid fst snd zeros zeros2 (rough_sum nodes).
Definition rough_lfun (nodes : list (R * R)) := lfun_SR inv_all det_small (fun _ => true) grid fst snd zeros zeros2 (rough_sum nodes).

Lemma wsum_le nodes f g : (forall p, In p nodes -> 0 < snd p) -> (forall u, f u <= g u) -> wsum nodes f <= wsum nodes g.
Proof.
  intros Hp H. induction nodes as [|p nodes IH]; cbn; [lra|].
  assert (0 < snd p) by (apply Hp; now left). apply Rplus_le_compat; [|apply IH; intros; apply Hp; now right].
  apply Rmult_le_compat_l; [lra|]. destruct (H (fst p)) as [Hl| ->]; [left; now apply exp_increasing|apply Rle_refl].
Qed.
Lemma logsum_log nodes : nodes <> [] -> (forall p, In p nodes -> 0 < snd p) -> log_integral (logsum nodes).
Proof.
  intros Hn Hp. split.
  - intros f g H. unfold logsum. pose proof (wsum_le nodes f g Hp H) as [Hl| ->]; [|apply Rle_refl].
    left. apply ln_increasing; [now apply wsum_pos|exact Hl].
  - exact (ei_shift _ _ (logsum_exact nodes Hn Hp)).
Qed.
Lemma rough_within nodes : stores_within fst snd (rough_sum nodes) (logsum nodes) (- (1 / 10)) (1 / 10).
Proof.
  intros f d d2 k n items b E. injection E as <-. split; [reflexivity|]. intros x g Hl Hk H. cbn [snd].
  assert (Eq : logsum nodes (fun u => from_ok (f (insert_at u k x))) = logsum nodes g).
  { unfold logsum. f_equal. apply wsum_ext. intros u. now rewrite H. }
  rewrite Eq. pose proof (SIN_bound (fold_right Rplus 1 x)). lra.
Qed.
(** It is a real error. *)
Lemma rough_inexact : sin (fold_right Rplus 1 []) / 10 <> 0.
Proof. cbn. assert (0 < sin 1); [|lra]. apply sin_gt_0; [lra|]. pose proof PI2_1. lra. Qed.

Lemma rough_made : match rough_setup two_nodes contests 1 "binomial" "logit" 3 with
  | Ok s => Some (List.length (sr_beliefs _ s)) | _ => None end = Some 5%nat.
Proof. lazy. reflexivity. Qed.

Lemma rough_run : exists s v, rough_setup two_nodes contests 1 "binomial" "logit" 3 = Ok s /\
  rough_lfun two_nodes (contests_approx (2 * v)) s [1; 0] = Ok v.
Proof.
  destruct contests_regular as [Reg Ne].
  pose proof rough_made as Hs. destruct (rough_setup two_nodes contests 1 "binomial" "logit" 3) as [s|e| |] eqn:Es; try discriminate. clear Hs.
  exists s.
  destruct (C57_lfun_main inv_all det_small (fun _ => true) grid fst snd zeros zeros2 (rough_sum two_nodes) contests 1 Logit 3 s Reg Ne)
    with (pars := [1; 0]) (mean := [0; 0; 0]) (prec := fun i j : Z => if Z.eqb i j then 2 else 1) as [_ G].
  - cbn. lia.
  - lia.
  - intros i [<-|[<-|[<-|[]]]]; lia.
  - exact Es.
  - intros f d d2 k n items b E. injection E as <-. reflexivity.
  - destruct G as [(v & Hv)|((x & H) & _)]; [|reflexivity|reflexivity| |discriminate].
    + intros f d d2 k n items Hnd Hk Hmean H. eexists. split; [reflexivity|]. split; [reflexivity|]. intros w. cbn. unfold zeros, zeros2.
      rewrite !map_length. split; [reflexivity|]. split; [reflexivity|]. intros row Hrow. apply in_map_iff in Hrow. destruct Hrow as (? & <- & _). now rewrite !map_length.
    + exists v. split; [reflexivity|]. apply (Hv (contests_approx (2 * v)) (2 * v) eq_refl). right. field.
Qed.

Lemma rough_case : log_integral (logsum two_nodes) /\
  stores_within fst snd (rough_sum two_nodes) (logsum two_nodes) (- (1 / 10)) (1 / 10) /\
  (forall p, fubini (sr_sig inv_all det_small (fun _ => true) grid fst snd zeros zeros2 (rough_sum two_nodes) p) (logsum two_nodes)) /\
  ~ (forall p, exact_integral (sr_sig inv_all det_small (fun _ => true) grid fst snd zeros zeros2 (rough_sum two_nodes) p) (logsum two_nodes)) /\
  (regular contests /\ no_empty contests) /\ determinants 1 det_small /\
  exists s v, rough_setup two_nodes contests 1 "binomial" "logit" 3 = Ok s /\
    rough_lfun two_nodes (contests_approx (2 * v)) s [1; 0] = Ok v.
Proof.
  destruct nodes_ok as [Hn Hp].
  split; [now apply logsum_log|]. split; [apply rough_within|]. split; [intros p; exact (logsum_fubini two_nodes Hn Hp)|].
  split; [|split; [exact contests_regular|split; [exact det_small_1|exact rough_run]]].
  intros H. specialize (H (GLMM.mkParams Rnum [] [] (mkFamily Logit Binomial))). pose proof (ei_value _ _ H) as V. clear H.
  specialize (V (fun _ => Ok 0) (fun _ => Ok []) (fun _ => Ok []) 0%nat (normal_given inv_all det_small [] []) []
    (Stored ([], fun x => logsum two_nodes (fun u => 0) + sin (fold_right Rplus 1 x) / 10)) eq_refl [] (fun _ => 0) eq_refl (le_n _) (fun _ => eq_refl)).
  change (logsum two_nodes (fun _ => 0) + sin (fold_right Rplus 1 []) / 10 = logsum two_nodes (fun _ => 0)) in V.
  apply rough_inexact. lra.
Qed.
