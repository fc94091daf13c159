(** Rules of differentiation for functions of several variables. *)
From Coq Require Import List Reals Lia Lra Arith.
From Coquelicot Require Import Coquelicot.
From Verif Require Import Model.Base Model.Mixed Model.Vectors Spec.Calculus Proofs.VectorLemmas.
Import ListNotations.
Local Open Scope R_scope.

Lemma grad_ext n f f' x g g' : length x = n -> (forall y, length y = n -> f y = f' y) -> g = g' ->
  is_gradient n f x g -> is_gradient n f' x g'.
Proof.
  intros Lx E <- [Lg H]. split; [exact Lg|]. intros eps He. destruct (H eps He) as [del [Hd K]].
  exists del. split; [exact Hd|]. intros h Lh Nh.
  rewrite <- !E; auto. apply plus_v_length; auto.
Qed.

Lemma grad_const n c x : is_gradient n (fun _ => c) x (repeat 0 n).
Proof.
  split; [apply repeat_length|]. intros eps He. exists 1. split; [lra|]. intros h Lh _.
  rewrite scalar_zeros. replace (c - c - 0) with 0 by ring. rewrite Rabs_R0.
  pose proof (norm1_pos h). nra.
Qed.

Lemma grad_plus n f f' x g g' : is_gradient n f x g -> is_gradient n f' x g' ->
  is_gradient n (fun y => f y + f' y) x (vadd g g').
Proof.
  intros [Lg H] [Lg' H']. split; [apply vadd_length; auto|]. intros eps He.
  destruct (H (eps / 2) ltac:(lra)) as [d [Hd K]]. destruct (H' (eps / 2) ltac:(lra)) as [d' [Hd' K']].
  exists (Rmin d d'). split; [apply Rmin_pos; auto|]. intros h Lh Nh.
  specialize (K h Lh (Rlt_le_trans _ _ _ Nh (Rmin_l _ _))).
  specialize (K' h Lh (Rlt_le_trans _ _ _ Nh (Rmin_r _ _))).
  rewrite (scalar_vadd g g' h n) by auto.
  replace (_ - _ - _) with ((f (plus_v x h) - f x - scalar g h) + (f' (plus_v x h) - f' x - scalar g' h)) by ring.
  eapply Rle_trans; [apply Rabs_triang|]. lra.
Qed.

Lemma grad_increment n f x g : is_gradient n f x g ->
  exists del, 0 < del /\ forall h, length h = n -> norm1 h < del ->
    Rabs (f (plus_v x h) - f x) <= (norm1 g + 1) * norm1 h.
Proof.
  intros [Lg H]. destruct (H 1 Rlt_0_1) as [del [Hd K]]. exists del. split; [exact Hd|].
  intros h Lh Nh. specialize (K h Lh Nh).
  replace (f (plus_v x h) - f x) with ((f (plus_v x h) - f x - scalar g h) + scalar g h) by ring.
  eapply Rle_trans; [apply Rabs_triang|]. pose proof (scalar_bound g h). lra.
Qed.

(** Chain rule with a function of one variable. *)
Lemma grad_comp n f x g (phi : R -> R) (l : R) : is_gradient n f x g -> is_derive phi (f x) l ->
  is_gradient n (fun y => phi (f y)) x (vscale l g).
Proof.
  intros G D. pose proof G as [Lg H]. split; [rewrite vscale_length; exact Lg|]. intros eps He.
  destruct (grad_increment _ _ _ _ G) as [d1 [Hd1 K1]].
  set (C := norm1 g + 1) in *. assert (HC : 1 <= C) by (pose proof (norm1_pos g); unfold C; lra).
  apply is_derive_Reals in D.
  destruct (D (eps / (2 * C)) ltac:(apply Rdiv_lt_0_compat; lra)) as [d2 D2].
  pose proof (Rabs_pos l) as Hl.
  destruct (H (eps / (2 * (Rabs l + 1))) ltac:(apply Rdiv_lt_0_compat; lra)) as [d3 [Hd3 K3]].
  exists (Rmin (Rmin d1 d3) (d2 / C)). split.
  { pose proof (cond_pos d2). repeat apply Rmin_pos; auto. apply Rdiv_lt_0_compat; lra. }
  intros h Lh Nh.
  pose proof (Rmin_l (Rmin d1 d3) (d2 / C)). pose proof (Rmin_r (Rmin d1 d3) (d2 / C)).
  pose proof (Rmin_l d1 d3). pose proof (Rmin_r d1 d3).
  specialize (K1 h Lh ltac:(lra)). specialize (K3 h Lh ltac:(lra)).
  set (t := f (plus_v x h) - f x) in *.
  assert (Ht : Rabs t < d2).
  { eapply Rle_lt_trans; [exact K1|]. apply Rlt_le_trans with (C * (d2 / C)).
    - apply Rmult_lt_compat_l; lra.
    - right. field. lra. }
  assert (Hphi : Rabs (phi (f x + t) - phi (f x) - l * t) <= eps / (2 * C) * Rabs t).
  { destruct (Req_dec t 0) as [->|Nt].
    - rewrite Rplus_0_r. replace (_ - _ - _) with 0 by ring. rewrite !Rabs_R0. lra.
    - specialize (D2 t Nt Ht). replace (_ - _ - _) with (((phi (f x + t) - phi (f x)) / t - l) * t) by (field; auto).
      rewrite Rabs_mult. apply Rmult_le_compat_r; [apply Rabs_pos|]. lra. }
  rewrite scalar_vscale.
  replace (f (plus_v x h)) with (f x + t) by (unfold t; ring).
  replace (_ - _ - _) with ((phi (f x + t) - phi (f x) - l * t) + l * (t - scalar g h)) by ring.
  eapply Rle_trans; [apply Rabs_triang|]. rewrite Rabs_mult.
  assert (A1 : eps / (2 * C) * Rabs t <= eps / 2 * norm1 h).
  { apply Rle_trans with (eps / (2 * C) * (C * norm1 h)).
    - apply Rmult_le_compat_l; [|lra]. left. apply Rdiv_lt_0_compat; lra.
    - right. field. lra. }
  assert (A2 : Rabs l * Rabs (t - scalar g h) <= eps / 2 * norm1 h).
  { apply Rle_trans with (Rabs l * (eps / (2 * (Rabs l + 1)) * norm1 h)).
    - apply Rmult_le_compat_l; lra.
    - pose proof (norm1_pos h).
      replace (Rabs l * (eps / (2 * (Rabs l + 1)) * norm1 h)) with
        (eps / 2 * norm1 h * (Rabs l / (Rabs l + 1))) by (field; lra).
      rewrite <- (Rmult_1_r (eps / 2 * norm1 h)) at 2. apply Rmult_le_compat_l; [nra|].
      apply Rle_div_l; lra. }
  lra.
Qed.

Lemma grad_scale n f x g c : is_gradient n f x g -> is_gradient n (fun y => c * f y) x (vscale c g).
Proof.
  intros G. apply (grad_comp n f x g (fun t => c * t) c G). auto_derive; [auto|ring].
Qed.

Lemma grad_mult n f f' x g g' : length x = n -> is_gradient n f x g -> is_gradient n f' x g' ->
  is_gradient n (fun y => f y * f' y) x (vadd (vscale (f' x) g) (vscale (f x) g')).
Proof.
  intros Lx G G'.
  pose proof (grad_comp n _ x _ (fun t => t ^ 2) (2 * (f x + f' x)) (grad_plus n f f' x g g' G G')
                        ltac:(auto_derive; [auto|ring])) as A.
  pose proof (grad_comp n f x g (fun t => t ^ 2) (2 * f x) G ltac:(auto_derive; [auto|ring])) as B.
  pose proof (grad_comp n f' x g' (fun t => t ^ 2) (2 * f' x) G' ltac:(auto_derive; [auto|ring])) as B'.
  pose proof (grad_scale _ _ _ _ (1/2) (grad_plus _ _ _ _ _ _ A
               (grad_scale _ _ _ _ (-1) (grad_plus _ _ _ _ _ _ B B')))) as T.
  destruct G as [Lg _], G' as [Lg' _].
  eapply grad_ext; [exact Lx| | |exact T].
  - intros y _. cbn. field.
  - apply (vec_ext _ _ n); repeat (rewrite ?vscale_length || apply vadd_length); auto.
    intros i Hi.
    repeat (rewrite nth_vscale || rewrite (nth_vadd i _ _ n) by
      (auto; repeat (rewrite ?vscale_length || apply vadd_length); auto)).
    field.
Qed.

(** Composition with the affine map which puts c + a.x at position o. *)
Lemma grad_affine n f x g o c a : length x = n -> length a = n -> (o <= n)%nat ->
  is_gradient (S n) f (insert o x (c + scalar a x)) g ->
  is_gradient n (fun y => f (insert o y (c + scalar a y))) x
    (vadd (erase g o) (vscale (nth o g 0) a)).
Proof.
  intros Lx La Ho [Lg H].
  assert (Le : length (erase g o) = n) by (apply erase_length; auto).
  split; [apply vadd_length; rewrite ?vscale_length; auto|].
  intros eps He. set (C := 1 + norm1 a). assert (HC : 1 <= C) by (pose proof (norm1_pos a); unfold C; lra).
  destruct (H (eps / C) ltac:(apply Rdiv_lt_0_compat; lra)) as [del [Hd K]].
  exists (del / C). split; [apply Rdiv_lt_0_compat; lra|]. intros h Lh Nh.
  pose proof (scalar_bound a h) as Ba.
  assert (Nn : norm1 (insert o h (scalar a h)) <= C * norm1 h)
    by (rewrite norm1_insert; unfold C; lra).
  specialize (K (insert o h (scalar a h)) ltac:(rewrite insert_length; lia)).
  assert (norm1 (insert o h (scalar a h)) < del).
  { eapply Rle_lt_trans; [exact Nn|]. apply Rlt_le_trans with (C * (del / C)); [apply Rmult_lt_compat_l; lra|right; field; lra]. }
  specialize (K H0). rewrite (insert_plus o x h _ _ n) in K by auto.
  rewrite (scalar_plus a x h n) by auto.
  rewrite Rplus_assoc in K. rewrite (scalar_insert o g h _ n) in K by auto.
  rewrite (scalar_vadd _ _ h n) by (rewrite ?vscale_length; auto). rewrite scalar_vscale.
  eapply Rle_trans; [exact K|]. apply Rle_trans with (eps / C * (C * norm1 h)).
  - apply Rmult_le_compat_l; [left; apply Rdiv_lt_0_compat; lra|lra].
  - right. field. lra.
Qed.
