(** A cluster graph whose calibrated flag is out of date. *)
From Coq Require Import List ZArith Bool Lia.
From Verif Require Import Model.Base Model.Mixed Model.ClusterGraph
  Spec.BeliefSpec Spec.TreeSpec Spec.IntegralSpec Spec.MessageSpec Spec.CalibSpec Spec.Toy
  Props.ClusterProps Props.MessageProps.
Import ListNotations.

Lemma toy_fubini_max : fubini toy (fun g => Z.max (g 0%Z) (g 1%Z)).
Proof. intros f. simpl. lia. Qed.

Lemma C53_refuted_main :
  exists (S : sig) LI (fs : list (B S)) ops cg cg1 cg2 its m,
  group_laws S /\ exact_integral S LI /\ fubini S LI /\ (forall f, In f fs -> NoDup (bscope S f)) /\
  build fs = Ok cg /\ run_ops cg ops = Ok cg1 /\ cg_margin cg1 its = Ok (m, cg2) /\
  ~ holds_marginal LI fs m.
Proof.
  exists toy, (fun g => Z.max (g 0%Z) (g 1%Z)), cycle.
  set (ops := [OpCalibrate; @OpSetNormal toy (repeat 0%Z 10) (fun _ _ => 0%Z)]). exists ops.
  assert (E : on_ok (cg <- build cycle ;; cg1 <- run_ops cg ops ;; r <- cg_margin cg1 [1%Z] ;; Ok r)
     (fun r => m_items (fst r) = [1%Z] /\ @lval toy (fun _ => 0%Z) (fst r) = Ok (-5)%Z)).
  { vm_compute. split; reflexivity. }
  destruct (build cycle) as [cg| | |] eqn:E0; simpl in E; try tauto.
  destruct (run_ops cg ops) as [cg1| | |] eqn:E1; cbn [bind] in E; try (now exfalso).
  destruct (cg_margin cg1 [1%Z]) as [[m cg2]| | |] eqn:E2; cbn [bind on_ok fst] in E; try (now exfalso).
  destruct E as [Em Ev]. exists cg, cg1, cg2, [1%Z], m.
  split; [apply toy_laws|]. split; [apply toy_exact|]. split; [apply toy_fubini_max|].
  split; [apply cycle_scopes|]. split; auto. split; auto. split; auto.
  intros (v & Hv & Hm). specialize (Hv (fun _ => 0%Z)). rewrite Ev in Hv. injection Hv as Hv.
  rewrite Em in Hm. specialize (Hm [2; 3; 4; 9]%Z).
  assert (Q : v (fun _ => 0%Z) = 20%Z).
  { rewrite Hm.
    - vm_compute. reflexivity.
    - repeat constructor; simpl; intuition discriminate.
    - intros x. split.
      + intros Hx. split.
        * simpl in Hx. unfold cycle. simpl.
          decompose [or] Hx; subst; try tauto;
            [exists (factor [1; 2]%Z zsum)|exists (factor [3; 2]%Z zsum)|exists (factor [4; 1]%Z zsum)
            |exists (factor [9; 4]%Z zsum)]; simpl; tauto.
        * simpl in *. intuition (subst; discriminate).
      + intros ((f & Hf & Hx) & Hn). unfold cycle in Hf. simpl in Hf, Hn |- *.
        decompose [or] Hf; subst; simpl in *; try tauto; decompose [or] Hx; subst; tauto. }
  rewrite Q in Hv. discriminate.
Qed.
