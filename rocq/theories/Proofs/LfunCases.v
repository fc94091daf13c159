(** Cases for C56 and C57: integrals that are sums over fixed nodes. *)
From Coq Require Import String List ZArith Bool Arith Lia Reals Lra.
From Verif Require Import Model.Base Model.Family Model.GLMM Model.SplitFrame Model.Vectors Model.Mixed Model.MultiNormal
  Model.NormalSig Model.ClusterGraph Model.LfunSR Spec.Numbers Spec.FamilySpec Spec.GLMMSpec Spec.SplitSpec Spec.ISSpec
  Spec.BeliefSpec Spec.IntegralSpec Spec.TreeSpec Spec.MixedSpec Spec.DensitySpec Spec.TotalSpec Spec.LfunSpec Spec.LogSum Spec.Toy
  Proofs.ListLemmas Proofs.SplitCases Proofs.MessageLemmas Proofs.DensityJoint Proofs.JointCases Proofs.TotalMain Proofs.LfunMain.
Import ListNotations.
Local Open Scope R_scope.

Definition grid : Type := (list Z * (rvec -> R))%type.
Definition zeros (b : grid) (x : rvec) : rvec := map (fun _ => 0) x.
Definition zeros2 (b : grid) (x : rvec) : rmat := map (fun _ => map (fun _ => 0) x) x.
Definition node_sum (nodes : list (R * R)) (f : rvec -> outcome R) (d : rvec -> outcome rvec) (d2 : rvec -> outcome rmat)
    (k : nat) (n : mnormal) (items : list Z) : outcome grid :=
  Ok (items, fun x => logsum nodes (fun u => from_ok (f (insert_at u k x)))).
Definition node_sig (nodes : list (R * R)) := sr_sig inv_all det_small (fun _ => true) grid fst snd zeros zeros2 (node_sum nodes).
Definition node_setup (nodes : list (R * R)) := find_lfun_SR inv_all det_small (fun _ => true) grid fst snd zeros zeros2 (node_sum nodes).
Definition node_lfun (nodes : list (R * R)) := lfun_SR inv_all det_small (fun _ => true) grid fst snd zeros zeros2 (node_sum nodes).

Lemma node_put nodes p u : forall k x, put (node_sig nodes p) u k x = insert_at u k x.
Proof. induction k; intros [|y x]; cbn; auto. now rewrite IHk. Qed.

Lemma node_exact nodes p : nodes <> [] -> (forall a, In a nodes -> 0 < snd a) ->
  exact_integral (node_sig nodes p) (logsum nodes) /\ fubini (node_sig nodes p) (logsum nodes) /\ integrates (node_sig nodes p).
Proof.
  intros Hn Hp. pose proof (logsum_exact nodes Hn Hp) as X. split; [|split].
  - constructor.
    + exact (ei_ext _ _ X).
    + exact (ei_shift _ _ X).
    + intros f d d2 k n items b E. cbn in E. injection E as <-. reflexivity.
    + intros f d d2 k n items b E x g Hl Hk H. cbn in E. injection E as <-. cbn.
      unfold logsum. f_equal. apply wsum_ext. intros u. 
      exact (f_equal from_ok (eq_trans (f_equal f (eq_sym (node_put nodes p u k x))) (H u))).
  - exact (logsum_fubini nodes Hn Hp).
  - intros f d d2 k n items Hnd Hk Hmean H. eexists. split; [reflexivity|]. split; [reflexivity|]. intros w. cbn. unfold zeros, zeros2.
    rewrite !map_length. split; [reflexivity|]. split; [reflexivity|]. intros row Hrow. apply in_map_iff in Hrow. destruct Hrow as (? & <- & _). now rewrite !map_length.
Qed.

Definition two_nodes : list (R * R) := [(-1, 1); (1, 1)].
(** Contests between 0 and 1, and between 1 and 2. *)
Definition contests : frame Rnum :=
  mkFrame Rnum [[1]; [1]; [1]] 1 (mkCsc 3 [[(0%nat, 1); (1%nat, -1)]; [(1%nat, 1); (2%nat, -1)]; [(1%nat, 1); (2%nat, -1)]])
    (mkCsc 3 [[(0%nat, 1)]; [(1%nat, 1)]; [(2%nat, 1)]]) [1%Z; 1%Z; 1%Z] (Numeric Rnum [1; 0; 1]) None.

Lemma contests_regular : regular contests /\ no_empty contests.
Proof.
  split; [constructor; cbn [contests fr_X fr_numFixed fr_Zt fr_Lambdat fr_Lind fr_response fr_weights response_vector cs_cols cs_rows]; try reflexivity|].
  - intros row [<-|[<-|[<-|[]]]]; reflexivity.
  - intros r c S. pose proof (stored_cols _ _ _ S) as L. cbn in L. destruct S as (x & S).
    destruct c as [|[|[|c]]]; cbn in S; [| | |lia]; destruct S as [S|[S|[]]]; injection S as <- _; lia.
  - intros r c S. pose proof (stored_cols _ _ _ S) as L. cbn in L. destruct S as (x & S).
    destruct c as [|[|[|c]]]; cbn in S; [| | |lia]; destruct S as [S|[]]; injection S as <- _; lia.
  - intros k Hk. exists 1. destruct k as [|[|[|k]]]; cbn; [now left|now left|now left|lia].
  - discriminate.
  - intros o Ho. cbn in Ho. destruct o as [|[|[|o]]]; [| | |lia].
    + exists 0%nat, 0%nat. split; exists 1; now left.
    + exists 1%nat, 1%nat. split; exists 1; now left.
    + exists 1%nat, 1%nat. split; exists 1; now left.
Qed.

Lemma contests_setup : match node_setup two_nodes contests 1 "binomial" "logit" 3 with
  | Ok s => Some (List.length (sr_beliefs _ s)) | _ => None end = Some 5%nat.
Proof. lazy. reflexivity. Qed.
(** The clusters have two items. *)
Lemma contests_width : match (s <- node_setup two_nodes contests 1 "binomial" "logit" 3 ;;
    cg <- sr_graph inv_all det_small (fun _ => true) grid fst snd zeros zeros2 (node_sum two_nodes) (GLMM.mkParams Rnum [] [] (mkFamily Logit Binomial)) (sr_beliefs _ s) ;;
    Ok (width cg, nClusters cg)) with Ok w => Some w | _ => None end = Some (2%Z, 2%nat).
Proof. lazy. reflexivity. Qed.
(** With ten levels it is too complex. *)
Lemma contests_complex : match node_setup two_nodes contests 1 "binomial" "logit" 10 with Throw RuntimeError => true | _ => false end = true.
Proof. lazy. reflexivity. Qed.

Lemma det_small_1 : determinants 1 det_small.
Proof.
  assert (Q : forall A, MatrixSpec.square 1 A -> exists a, A = [[a]]).
  { intros A [L R]. destruct A as [|r [|]]; try discriminate. pose proof (R 0%nat ltac:(lia)) as R0. cbn in R0.
    destruct r as [|a [|]]; try discriminate. eauto. }
  split.
  - intros A B i j c HA HB Hi Hj Hne H. lia.
  - intros A HA H. destruct (Q A HA) as (a & ->). unfold prodR. cbn. unfold MatrixSpec.entry. cbn. ring.
Qed.

Definition contests_approx (ll : R) (pars : list R) : R * rvec * (Z -> Z -> R) :=
  (ll, [0; 0; 0], fun i j => if Z.eqb i j then 2 else 1).
Lemma nodes_ok : two_nodes <> [] /\ forall a, In a two_nodes -> 0 < snd a.
Proof. split; [discriminate|]. intros a [<-|[<-|[]]]; cbn; lra. Qed.

Lemma contests_run : exists s v, node_setup two_nodes contests 1 "binomial" "logit" 3 = Ok s /\
  node_lfun two_nodes (contests_approx (2 * v)) s [1; 0] = Ok v.
Proof.
  destruct contests_regular as [Reg Ne].
  pose proof contests_setup as Hs. destruct (node_setup two_nodes contests 1 "binomial" "logit" 3) as [s|e| |] eqn:Es; try discriminate. clear Hs.
  exists s.
  destruct (C57_lfun_main inv_all det_small (fun _ => true) grid fst snd zeros zeros2 (node_sum two_nodes) contests 1 Logit 3 s Reg Ne)
    with (pars := [1; 0]) (mean := [0; 0; 0]) (prec := fun i j : Z => if Z.eqb i j then 2 else 1) as [_ G].
  - cbn. lia.
  - lia.
  - intros i [<-|[<-|[<-|[]]]]; lia.
  - exact Es.
  - intros f d d2 k n items b E. injection E as <-. reflexivity.
  - destruct G as [(v & Hv)|((x & H) & _)]; [apply node_exact; apply nodes_ok|reflexivity|reflexivity| |discriminate].
    exists v. split; [reflexivity|]. apply (Hv (contests_approx (2 * v)) (2 * v) eq_refl). right. field.
Qed.

Lemma contests_case : (regular contests /\ no_empty contests) /\
  (forall p, exact_integral (node_sig two_nodes p) (logsum two_nodes) /\ fubini (node_sig two_nodes p) (logsum two_nodes) /\
     integrates (node_sig two_nodes p)) /\ determinants 1 det_small /\
  exists s v, node_setup two_nodes contests 1 "binomial" "logit" 3 = Ok s /\
    node_lfun two_nodes (contests_approx (2 * v)) s [1; 0] = Ok v.
Proof.
  split; [exact contests_regular|]. split; [intros p; apply node_exact; apply nodes_ok|]. split; [exact det_small_1|exact contests_run].
Qed.
