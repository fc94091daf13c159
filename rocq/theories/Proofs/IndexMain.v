From Coq Require Import List ZArith Lia FinFun.
From Verif Require Import Model.Indexing Spec.IndexSpec.
Import ListNotations.
Local Open Scope Z_scope.

(** The place of a tuple, from 0. *)
Fixpoint place (l t : list Z) : Z :=
  match l, t with
  | n :: l', i :: t' => (i - 1) + n * place l' t'
  | _, _ => 0
  end.

Lemma upto_length n : 0 <= n -> Z.of_nat (length (upto n)) = n.
Proof. intros H. unfold upto. rewrite map_length, seq_length. lia. Qed.
Lemma upto_In n i : In i (upto n) <-> 1 <= i <= n.
Proof.
  unfold upto. rewrite in_map_iff. split.
  - intros (k & <- & H). apply in_seq in H. lia.
  - intros H. exists (Z.to_nat i). split; [lia|]. apply in_seq. lia.
Qed.
Lemma upto_nth n k : (k < Z.to_nat n)%nat -> nth k (upto n) 0 = Z.of_nat k + 1.
Proof.
  intros H. unfold upto. rewrite (nth_indep _ 0 (Z.of_nat 0)) by now rewrite map_length, seq_length.
  rewrite map_nth, seq_nth by easy. lia.
Qed.

Lemma concat_uniform {A} (ls : list (list A)) (m : nat) (d : A) k j : (forall x, In x ls -> length x = m) -> (j < m)%nat -> (k < length ls)%nat ->
  nth (j + m * k) (concat ls) d = nth j (nth k ls []) d.
Proof.
  revert k. induction ls as [|x ls IH]; intros k H Hj Hk; [cbn in Hk; lia|]. cbn [concat].
  pose proof (H x (or_introl eq_refl)) as Hx. destruct k as [|k].
  - rewrite Nat.mul_0_r, Nat.add_0_r. cbn [nth]. now rewrite app_nth1 by lia.
  - rewrite app_nth2 by lia. cbn [nth]. replace (j + m * S k - length x)%nat with (j + m * k)%nat by lia.
    apply IH; [intros y Hy; apply H; now right|easy|cbn in Hk; lia].
Qed.
Lemma concat_uniform_length {A} (ls : list (list A)) (m : nat) : (forall x, In x ls -> length x = m) -> length (concat ls) = (m * length ls)%nat.
Proof.
  induction ls as [|x ls IH]; intros H; [cbn; lia|]. cbn [concat length]. rewrite app_length, IH by (intros y Hy; apply H; now right).
  rewrite (H x (or_introl eq_refl)). lia.
Qed.

Lemma product_pos l : List.Forall (fun n => 1 <= n) l -> 1 <= product l.
Proof. induction 1; cbn; [lia|]. fold (product l). nia. Qed.

Lemma grid_length l : List.Forall (fun n => 1 <= n) l -> Z.of_nat (length (grid l)) = product l.
Proof.
  induction 1 as [|n l Hn Hl IH]; [reflexivity|]. cbn [grid product fold_right]. fold (product l).
  rewrite (concat_uniform_length _ (Z.to_nat n)).
  - rewrite map_length. lia.
  - intros x Hx. apply in_map_iff in Hx. destruct Hx as (t & <- & _). rewrite map_length. unfold upto. now rewrite map_length, seq_length.
Qed.

Lemma within_pos l t : within l t -> List.Forall (fun n => 1 <= n) l.
Proof. induction 1; constructor; [lia|easy]. Qed.

Lemma place_range l t : within l t -> 0 <= place l t < product l.
Proof.
  induction 1 as [|n i l t H W IH]; cbn; [lia|]. fold (product l). nia.
Qed.

Lemma grid_place l t : within l t -> nth (Z.to_nat (place l t)) (grid l) [] = t.
Proof.
  induction 1 as [|n i l t H W IH]; [reflexivity|]. cbn [place grid].
  pose proof (place_range l t W) as B. pose proof (grid_length l (within_pos _ _ W)) as G.
  replace (Z.to_nat (i - 1 + n * place l t)) with (Z.to_nat (i - 1) + Z.to_nat n * Z.to_nat (place l t))%nat.
  2: { rewrite Z2Nat.inj_add, Z2Nat.inj_mul by nia. reflexivity. }
  rewrite concat_uniform.
  - set (f := fun t0 => map (fun i0 : Z => i0 :: t0) (upto n)).
    rewrite (nth_indep _ [] (f [])) by (rewrite map_length; lia). rewrite map_nth, IH. unfold f.
    rewrite (nth_indep _ [] (0 :: t)) by (rewrite map_length; unfold upto; rewrite map_length, seq_length; lia).
    rewrite (map_nth (fun i0 => i0 :: t)). rewrite upto_nth by lia. f_equal. lia.
  - intros x Hx. apply in_map_iff in Hx. destruct Hx as (t' & <- & _). rewrite map_length. unfold upto. now rewrite map_length, seq_length.
  - lia.
  - rewrite map_length. lia.
Qed.

Lemma grid_within l : forall t, In t (grid l) -> within l t.
Proof.
  induction l as [|n l IH]; intros t H; cbn [grid] in H.
  - destruct H as [<-|[]]. constructor.
  - apply in_concat in H. destruct H as (x & Hx & H). apply in_map_iff in Hx. destruct Hx as (t' & <- & Ht). apply in_map_iff in H. destruct H as (i & <- & Hi).
    apply upto_In in Hi. constructor; [easy|]. now apply IH.
Qed.

Lemma place_inj l t : within l t -> forall t', within l t' -> place l t = place l t' -> t = t'.
Proof.
  intros W t' W' E. rewrite <- (grid_place l t W), <- (grid_place l t' W'). now rewrite E.
Qed.

(** The steps. *)
Lemma cumprod_scale l : forall a, cumprod_from a l = map (Z.mul a) (cumprod l).
Proof.
  unfold cumprod. induction l as [|x l IH]; intros a; cbn [cumprod_from map]; [easy|]. rewrite (IH (a * x)), (IH (1 * x)), map_map. f_equal; [lia|].
  apply map_ext. intros b. lia.
Qed.
Lemma removelast_map {A B} (f : A -> B) l : removelast (map f l) = map f (removelast l).
Proof. induction l as [|x [|y l] IH]; try reflexivity. cbn [map removelast] in *. now rewrite IH. Qed.
Lemma steps_cons n l : l <> [] -> steps (n :: l) = 1 :: map (Z.mul n) (steps l).
Proof.
  intros H. unfold steps. f_equal. unfold cumprod at 1. cbn [cumprod_from]. rewrite Z.mul_1_l, cumprod_scale.
  destruct l as [|m l]; [easy|]. cbn [map]. rewrite Z.mul_1_r.
  change (map (Z.mul n) (cumprod (m :: l))) with (n * (1 * m) :: map (Z.mul n) (cumprod_from (1 * m) l)).
  change (removelast (n :: n * (1 * m) :: map (Z.mul n) (cumprod_from (1 * m) l))) with (n :: removelast (map (Z.mul n) (cumprod (m :: l)))).
  now rewrite removelast_map.
Qed.

Lemma steps_length l : l <> [] -> length (steps l) = length l.
Proof.
  intros H. unfold steps. cbn [length]. destruct l as [|x l]; [easy|].
  assert (E : forall l a, length (cumprod_from a l) = length l) by (clear; induction l; intros; cbn; auto).
  pose proof (app_removelast_last 0 (l := cumprod (x :: l)) ltac:(discriminate)) as A. apply (f_equal (@length Z)) in A. rewrite app_length in A.
  unfold cumprod at 1 in A. rewrite E in A. cbn [length] in *. lia.
Qed.

Definition dotZ (t h : list Z) : Z := fold_right Z.add 0 (map (fun ab => (fst ab - 1) * snd ab) (combine t h)).
Lemma dotZ_scale t h n : dotZ t (map (Z.mul n) h) = n * dotZ t h.
Proof.
  revert h. induction t as [|x t IH]; intros [|y h]; unfold dotZ in *; cbn; try lia. rewrite IH. lia.
Qed.
Lemma dot_place l t : within l t -> l <> [] -> dotZ t (steps l) = place l t.
Proof.
  induction 1 as [|n i l t H W IH]; intros N; [easy|]. destruct l as [|m l].
  - inversion W; subst. unfold dotZ. cbn. lia.
  - rewrite steps_cons by easy. unfold dotZ. cbn [combine map fold_right fst snd]. fold (dotZ t (map (Z.mul n) (steps (m :: l)))).
    rewrite dotZ_scale, IH by easy. cbn [place]. lia.
Qed.

(** The columns. *)
Definition tuple (vars : list (list Z)) (j : nat) : list Z := map (fun row => nth j row 0) vars.
Lemma flat_nth vars l k : length vars = length l -> l <> [] -> (forall v, In v vars -> length v = k) ->
  length (multi_to_flat vars l) = k /\
  forall j, (j < k)%nat -> nth j (multi_to_flat vars l) 0 = 1 + dotZ (tuple vars j) (steps l).
Proof.
  intros L N K. pose proof (steps_length l N) as S.
  assert (HD : length (hd [] (map (fun rh : list Z * Z => map (fun m => (m - 1) * snd rh) (fst rh)) (combine vars (steps l)))) = k).
  { destruct vars as [|v vars]; [destruct l; [easy|discriminate]|]. destruct (steps l) as [|s h]; [destruct l; [easy|discriminate]|].
    cbn. rewrite map_length. apply K. now left. }
  unfold multi_to_flat, colSums. rewrite HD. split; [now rewrite !map_length, seq_length|].
  intros j Hj. rewrite map_map.
  match goal with |- nth j (map ?g _) 0 = _ => rewrite (nth_indep _ 0 (g 0%nat)) by (now rewrite map_length, seq_length); rewrite (map_nth g) end.
  rewrite seq_nth by easy. cbn [Nat.add]. f_equal. unfold dotZ, tuple. f_equal. rewrite map_map.
  rewrite <- L in S. revert S K. clear -Hj. generalize (steps l) as h. induction vars as [|v vars IH]; intros [|s h] S K; try discriminate; [reflexivity|].
  cbn [combine map fst snd]. f_equal.
  - rewrite (nth_indep _ 0 ((0 - 1) * s)) by (rewrite map_length, (K v); [easy|now left]). now rewrite (map_nth (fun m => (m - 1) * s)).
  - apply IH; [cbn in S; lia|]. intros x Hx. apply K. now right.
Qed.

Lemma C40_main l vars k : l <> [] -> length vars = length l -> (forall v, In v vars -> length v = k) ->
  (forall j, (j < k)%nat -> within l (map (fun v => nth j v 0) vars)) ->
  length (flatten_vars vars l) = k /\
  forall j, (j < k)%nat -> let f := nth j (flatten_vars vars l) 0 in
    1 <= f <= product l /\ nth (Z.to_nat (f - 1)) (grid l) [] = map (fun v => nth j v 0) vars.
Proof.
  intros N L K W. destruct (flat_nth vars l k L N K) as (F1 & F2). split; [exact F1|].
  intros j Hj f. assert (E : f = 1 + place l (map (fun v => nth j v 0) vars)).
  { unfold f, flatten_vars. rewrite F2 by easy. unfold tuple. now rewrite dot_place by auto. }
  pose proof (place_range _ _ (W j Hj)). split; [lia|]. rewrite E. replace (1 + place l (map (fun v => nth j v 0) vars) - 1) with (place l (map (fun v => nth j v 0) vars)) by lia.
  now apply grid_place, W.
Qed.

Lemma C40_bijection_main l : l <> [] -> List.Forall (fun n => 1 <= n) l ->
  (forall t, In t (grid l) <-> within l t) /\ Z.of_nat (length (grid l)) = product l /\
  (forall t t', within l t -> within l t' -> multi_to_flat (map (fun i => [i]) t) l = multi_to_flat (map (fun i => [i]) t') l -> t = t') /\
  (forall f, 1 <= f <= product l -> exists t, within l t /\ multi_to_flat (map (fun i => [i]) t) l = [f]).
Proof.
  intros N P.
  assert (One : forall t, within l t -> multi_to_flat (map (fun i => [i]) t) l = [1 + place l t]).
  { intros t W. assert (L : length t = length l) by (clear -W; induction W; cbn; congruence).
    destruct (flat_nth (map (fun i => [i]) t) l 1) as (F1 & F2); [now rewrite map_length|easy| |].
    - intros v Hv. apply in_map_iff in Hv. destruct Hv as (i & <- & _). reflexivity.
    - destruct (multi_to_flat _ l) as [|f [|]]; try discriminate. specialize (F2 0%nat ltac:(lia)). cbn [nth] in F2. rewrite F2. f_equal. f_equal.
      unfold tuple. rewrite map_map. cbn [nth]. rewrite map_id. now apply dot_place. }
  assert (In_grid : forall t, within l t -> In t (grid l)).
  { intros t W. rewrite <- (grid_place l t W). apply nth_In. pose proof (place_range l t W). pose proof (grid_length l P). lia. }
  split; [intros t; split; [apply grid_within|apply In_grid]|]. split; [now apply grid_length|]. split.
  - intros t t' W W' E. rewrite !One in E by easy. apply (f_equal (hd 0)) in E. cbn [hd] in E. apply (place_inj l); [easy|easy|lia].
  - intros f Hf. set (t := nth (Z.to_nat (f - 1)) (grid l) []).
    assert (W : within l t) by (apply grid_within, nth_In; pose proof (grid_length l P); lia).
    exists t. split; [exact W|]. rewrite One by exact W. f_equal.
    assert (ND : NoDup (grid l)).
    { clear -P. induction P as [|n l Hn Hl IH]; cbn [grid]; [constructor; [easy|constructor]|].
      assert (U : NoDup (upto n)) by (apply FinFun.Injective_map_NoDup; [intros a b; lia|apply seq_NoDup]).
      revert IH. generalize (grid l) as g. induction g as [|t g IHg]; intros D; cbn [map concat]; [constructor|]. inversion D; subst.
      assert (X : forall (a b : list (list Z)), NoDup a -> NoDup b -> (forall x, In x a -> ~ In x b) -> NoDup (a ++ b)).
      { clear. induction a as [|x a IH]; intros b Da Db H; [easy|]. inversion Da; subst. cbn. constructor.
        - rewrite in_app_iff. intros [Q|Q]; [easy|]. exact (H x (or_introl eq_refl) Q).
        - apply IH; auto. intros y Hy. apply H. now right. }
      apply X; [|now apply IHg|].
      - apply FinFun.Injective_map_NoDup; [intros a b E; now injection E|exact U].
      - intros x Hx Hx'. apply in_map_iff in Hx. destruct Hx as (i & <- & _). apply in_concat in Hx'. destruct Hx' as (y & Hy & Hx').
        apply in_map_iff in Hy. destruct Hy as (t' & <- & Ht'). apply in_map_iff in Hx'. destruct Hx' as (i' & E & _). injection E as _ ->. easy. }
    pose proof (grid_length l P) as G. pose proof (place_range l t W) as R.
    pose proof (grid_place l t W) as E. unfold t in E at 2.
    apply (NoDup_nth (grid l) []) in E; [lia|easy|lia|lia].
Qed.
