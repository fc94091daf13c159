(** Cases for C59. *)
From Coq Require Import String List ZArith Bool Lia Reals.
From Verif Require Import Model.Base Model.GLMM Model.SplitFrame Model.Mixed Model.ClusterGraph
  Spec.Numbers Spec.GLMMSpec Spec.SplitSpec Spec.LfunSpec Spec.TreeSpec Spec.WidthSpec Spec.Toy Spec.ElimSpec Proofs.ElimLemmas Proofs.SplitCases Proofs.LfunCases.
Import ListNotations.

(** Six items and ten pairs. *)
Definition six : list (B toy) :=
  map (fun s => factor s zsum) [[1; 5]; [2; 3]; [3; 5]; [0; 3]; [3; 4]; [0; 5]; [0; 4]; [0; 2]; [1; 2]; [1; 4]]%Z.
Definition six_bags : list (list Z) := [[0; 1; 2; 3]; [0; 1; 3; 4]; [0; 1; 3; 5]]%Z.

Ltac jtree := repeat match goal with
  | |- junction_tree [_] => apply jt_last
  | |- junction_tree (_ :: ?bs) =>
      first [ match bs with ?p :: _ => apply jt_cons with p end;
              [|simpl; tauto|intros x c Hx Hc Hxc; simpl in *; intuition (subst; simpl in *; intuition congruence)]
            | match bs with _ :: ?p :: _ => apply jt_cons with p end;
              [|simpl; tauto|intros x c Hx Hc Hxc; simpl in *; intuition (subst; simpl in *; intuition congruence)] ]
  end.

Lemma C59_four_main : exists (S : sig) (fs : list (B S)) cg bags,
  (forall f, In f fs -> NoDup (bscope S f)) /\ build fs = Ok cg /\
  junction_tree bags /\ covers bags (map (bscope S) fs) /\ bags_within bags 4 /\ width cg = 5%Z.
Proof.
  exists toy, six. destruct (build six) as [cg| | |] eqn:E; try (vm_compute in E; discriminate).
  exists cg, six_bags. split; [|split; [reflexivity|split; [|split; [|split]]]].
  - intros f Hf. simpl in Hf.
    repeat destruct Hf as [<-|Hf]; simpl; repeat constructor; simpl; try tauto; intuition discriminate.
  - unfold six_bags. jtree.
  - intros s Hs. assert (H : existsb (inclb s) six_bags = true).
    { assert (G : forallb (fun s => existsb (inclb s) six_bags) (map (bscope toy) six) = true) by (vm_compute; reflexivity).
      rewrite forallb_forall in G. now apply G. }
    apply existsb_exists in H. destruct H as (b & Hb & H). exists b. split; auto. now apply inclb_incl.
  - intros b Hb. simpl in Hb. repeat destruct Hb as [<-|Hb]; simpl; try lia; contradiction.
  - assert (G : on_ok (build six) (fun cg => width cg = 5%Z)) by (vm_compute; reflexivity). rewrite E in G. exact G.
Qed.

Lemma cycle_width : junction_tree [[4; 9]; [1; 2; 3]; [1; 3; 4]]%Z /\
  covers [[4; 9]; [1; 2; 3]; [1; 3; 4]]%Z (map (bscope toy) cycle) /\ bags_within [[4; 9]; [1; 2; 3]; [1; 3; 4]]%Z 3 /\
  on_ok (build cycle) (fun cg => width cg = 3%Z).
Proof.
  split; [jtree|split; [|split]].
  - intros s Hs. assert (H : existsb (inclb s) [[4; 9]; [1; 2; 3]; [1; 3; 4]]%Z = true).
    { assert (G : forallb (fun s => existsb (inclb s) [[4; 9]; [1; 2; 3]; [1; 3; 4]]%Z) (map (bscope toy) cycle) = true) by (vm_compute; reflexivity).
      rewrite forallb_forall in G. now apply G. }
    apply existsb_exists in H. destruct H as (b & Hb & H). exists b. split; auto. now apply inclb_incl.
  - intros b Hb. simpl in Hb. repeat destruct Hb as [<-|Hb]; simpl; try lia; contradiction.
  - vm_compute. reflexivity.
Qed.

Lemma contests_narrow : regular contests /\ no_empty contests /\ (forall i, In i (fr_Lind _ contests) -> i = 1%Z) /\
  junction_tree [[0; 1]; [1; 2]]%Z /\ bags_within [[0; 1]; [1; 2]]%Z 2 /\ (2 ^ Z.of_nat (2 * 9) <= 500000)%Z /\
  (forall o, (o < List.length (cs_cols (fr_Zt _ contests)))%nat ->
     exists b, In b [[0; 1]; [1; 2]]%Z /\ forall r, depends (fr_Lambdat _ contests) (fr_Zt _ contests) o r -> In (Z.of_nat r) b) /\
  (forall r, In r (effects contests) -> exists b, In b [[0; 1]; [1; 2]]%Z /\ In r b).
Proof.
  destruct contests_regular as [Reg Ne]. split; [exact Reg|]. split; [exact Ne|]. split; [|split; [|split; [|split; [|split]]]].
  - intros i [<-|[<-|[<-|[]]]]; reflexivity.
  - jtree.
  - intros b [<-|[<-|[]]]; simpl; lia.
  - vm_compute. discriminate.
  - assert (Col : forall k r, stored (fr_Lambdat _ contests) r k -> r = k).
    { intros k r S. pose proof (stored_cols _ _ _ S) as L. cbn in L. destruct S as (x & S).
      destruct k as [|[|[|k]]]; cbn in S; [| | |lia]; destruct S as [S|[]]; injection S as <- _; reflexivity. }
    intros o Ho. cbn in Ho.
    exists (nth o [[0; 1]; [1; 2]; [1; 2]]%Z []). split; [destruct o as [|[|[|o]]]; [cbn; tauto|cbn; tauto|cbn; tauto|lia]|].
    intros r (k & (x & S) & S'). apply Col in S'. subst k.
    destruct o as [|[|[|o]]]; cbn in S; [| | |lia]; destruct S as [S|[S|[]]]; injection S as <- _; cbn; tauto.
  - intros r Hr. cbn in Hr. destruct Hr as [<-|[<-|[<-|[]]]]; [exists [0; 1]%Z|exists [0; 1]%Z|exists [1; 2]%Z]; simpl; tauto.
Qed.
