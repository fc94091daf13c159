(** The sparse grid of a function with the signs of some arguments changed. *)
From Coq Require Import List Arith ZArith Bool Lia Reals Lra.
From Coquelicot Require Import Coquelicot.
From Verif Require Import Model.Base Model.Counting Model.Point Model.SparseGrid Model.Vectors Spec.GLMMSpec Spec.MatrixSpec Spec.Calculus Spec.GridSpec Spec.NodalSpec
  Spec.FramesSpec Spec.SymmetrySpec Spec.SplineSpec Model.BasisLevel
  Proofs.ListLemmas Proofs.CountLemmas Proofs.PointLemmas Proofs.GLMMLemmas Proofs.VectorLemmas Proofs.SumLemmas Proofs.CalculusLemmas Proofs.GridMain Proofs.SparseMain Proofs.GridSpan Proofs.GridSmooth
  Proofs.NormalMain Proofs.SplineLemmas Proofs.StoreSmooth Proofs.SignMain Proofs.MirrorMain Proofs.QuantileMain Proofs.KnotMain Proofs.LevelMain.
Import ListNotations.
Local Open Scope R_scope.

(** * Grid points *)
Definition mir (t : R) (c : nat * nat) : nat * nat := if Req_EM_T t 1 then c else (fst c, 2 ^ fst c - 1 - snd c)%nat.
Definition flipn (s : list R) (c : list (nat * nat)) : list (nat * nat) := map (fun p => mir (fst p) (snd p)) (combine s c).

Section S.
Variables (b : basis) (k : nat) (D : R -> Prop) (xk : nat -> nat -> R) (phi phi1 phi2 : nat -> nat -> R -> R).
Hypothesis TB : total_basis b k D xk phi.
Hypothesis NB : nodal k xk phi.
Hypothesis SB : smooth_basis b k D phi phi1 phi2.
Hypothesis MB : mirrored k xk phi.
Variable d : nat.
Hypothesis Hd : (0 < d)%nat.
Notation N := (findNumGridPoints d k).
Notation gpc := (gpc k d).
Notation xn := (xn xk).
Notation tp := (tp phi).
Notation Ssum := (interp_sum k phi d).
Variable s : list R.
Hypothesis Ls : length s = d.
Hypothesis Fs : List.Forall sign s.

Lemma mir_node t c : sign t -> (fst c <= k)%nat -> (snd c < 2 ^ fst c)%nat ->
  fst (mir t c) = fst c /\ (snd (mir t c) < 2 ^ fst c)%nat /\ xn (mir t c) = t * xn c /\ forall y, ph phi (mir t c) y = ph phi c (t * y).
Proof.
  intros St Hk Hc. destruct (MB (fst c) (snd c) Hk Hc) as [E1 E2]. unfold mir. destruct (Req_EM_T t 1) as [->|Nt].
  - repeat split; auto; [now rewrite Rmult_1_l|]. intros y. now rewrite Rmult_1_l.
  - assert (Et : t = -1) by (destruct St; [contradiction|auto]). subst t. cbn [fst snd]. split; [reflexivity|]. split; [lia|]. split.
    + unfold SparseMain.xn. cbn [fst snd]. rewrite E1. ring.
    + intros y. unfold ph. cbn [fst snd]. rewrite E2. f_equal. ring.
Qed.

Lemma flipn_all (t : list R) c : List.Forall sign t -> length t = length c -> (forall r, In r c -> (fst r <= k)%nat /\ (snd r < 2 ^ fst r)%nat) ->
  map fst (flipn t c) = map fst c /\ Forall2 (fun l p => (p < 2 ^ l)%nat) (map fst (flipn t c)) (map snd (flipn t c)) /\
  map xn (flipn t c) = flip t (map xn c) /\ forall y, length y = length c -> tp (flipn t c) y = tp c (flip t y).
Proof.
  intros Ft. revert c. induction Ft as [|a t Ha Ft IH]; intros [|r c] L H; try discriminate.
  - repeat split; auto. constructor.
  - destruct (IH c ltac:(injection L; auto) ltac:(intros; apply H; now right)) as (E1 & E2 & E3 & E4).
    destruct (H r (or_introl eq_refl)) as [Hk Hr]. destruct (mir_node a r Ha Hk Hr) as (M1 & M2 & M3 & M4).
    unfold flipn. cbn [combine map]. fold (flipn t c). cbn [fst snd]. rewrite M1, E1. split; [reflexivity|]. split; [|split].
    + rewrite E1 in E2. constructor; auto.
    + unfold flip. cbn [combine map fst snd]. fold (flip t (map xn c)). now rewrite M3, E3.
    + intros [|v y] Ly; [discriminate|]. unfold flip. cbn [combine map fst snd]. fold (flip t y). cbn [SparseMain.tp]. rewrite M4, E4 by (injection Ly; auto). reflexivity.
Qed.
Lemma flipn_gpc c : gpc c -> gpc (flipn s c) /\ map xn (flipn s c) = flip s (map xn c) /\ forall y, length y = d -> tp (flipn s c) y = tp c (flip s y).
Proof.
  intros G. assert (Lc := gpc_len k d c G). destruct (flipn_all s c Fs ltac:(congruence) (gpc_k k d Hd c G)) as (E1 & E2 & E3 & E4).
  split; [|split; [exact E3|intros y Ly; apply E4; congruence]]. destruct G as (G1 & G2 & G3 & G4). unfold SparseMain.gpc, gp, grid_point.
  rewrite E1 in *. rewrite !map_length in *. unfold flipn at 1 2. rewrite ?map_length, ?combine_length. repeat split; auto; lia.
Qed.

(** * Coefficients *)
Lemma sum_flip cs : exists cs', length cs' = N /\ forall y, length y = d -> Ssum cs' y = Ssum cs (flip s y).
Proof.
  destruct (combination_sum k phi d Hd (map (fun i => (val cs i, (map fst (flipn s (pairs d i)), map snd (flipn s (pairs d i))))) (seq 0 N))) as (cs' & L & E).
  { apply Forall_forall. intros t Ht. apply in_map_iff in Ht. destruct Ht as (i & <- & Hi). apply in_seq in Hi. cbn [fst snd].
    destruct (pairs_spec k d Hd i ltac:(lia)) as (G & _). exact (proj1 (flipn_gpc _ G)). }
  exists cs'. split; [exact L|]. intros y Ly. rewrite E. unfold combination, interp_sum, rsum. rewrite map_map. f_equal. apply map_ext_in. intros i Hi. apply in_seq in Hi.
  cbn [fst snd]. destruct (pairs_spec k d Hd i ltac:(lia)) as (G & _). rewrite <- tp_product. f_equal. now apply flipn_gpc.
Qed.

(** * Functions *)
Lemma flip_len y : length y = d -> length (flip s y) = d.
Proof. intros Ly. rewrite flip_length; congruence. Qed.
Lemma grids f f' : (forall y, length y = d -> f' y = f (flip s y)) -> exists g g' m, grid_of f d b = Ok g /\ grid_of f' d b = Ok g' /\
  (sg_d g = d /\ SparseGrid.size g = N /\ sg_bound g = Some m) /\ (sg_d g' = d /\ SparseGrid.size g' = N /\ sg_bound g' = Some m) /\
  forall y, length y = d -> Ssum (sg_coefficients g') y = Ssum (sg_coefficients g) (flip s y).
Proof.
  intros Hf.
  destruct (grid_facts b k D xk phi TB NB d Hd f) as (g & m & E & D0 & S0 & B0 & V1 & V2 & c0 & G0 & V3).
  destruct (grid_facts b k D xk phi TB NB d Hd f') as (g' & m' & E' & D0' & S0' & B0' & V1' & V2' & c0' & G0' & V3').
  assert (Lx : forall c, gpc c -> length (map xn c) = d) by (intros c G; rewrite map_length; now apply (gpc_len k)).
  assert (FF : forall c, gpc c -> flip s (map xn (flipn s c)) = map xn c).
  { intros c G. rewrite (proj1 (proj2 (flipn_gpc c G))). apply flip_flip; auto. rewrite Ls. symmetry. now apply Lx. }
  assert (Em : m' = m).
  { apply Rle_antisym.
    - rewrite <- V3'. rewrite Hf by now apply Lx. rewrite <- (proj1 (proj2 (flipn_gpc c0' G0'))). apply V2. now apply flipn_gpc.
    - rewrite <- V3. rewrite <- (FF c0 G0). rewrite <- Hf by (apply Lx; now apply flipn_gpc). apply (V2' (flipn s c0)). now apply flipn_gpc. }
  rewrite Em in B0'. exists g, g', m. split; [exact E|]. split; [exact E'|]. split; [exact (conj D0 (conj S0 B0))|]. split; [exact (conj D0' (conj S0' B0'))|]. intros y Ly.
  destruct (sum_flip (sg_coefficients g)) as (cs & Lc & Ec). rewrite <- Ec by auto.
  apply (coefficients_unique k xk phi NB d Hd). intros c G. rewrite V1' by auto. destruct (flipn_gpc c G) as (Gf & Ex & _).
  rewrite Hf by now apply Lx. rewrite Ec by now apply Lx. rewrite <- Ex. symmetry. now apply V1.
Qed.
End S.

(** * Derivatives *)
Section Gradients.
Variable d : nat.
Variable s : list R.
Hypothesis Ls : length s = d.
Hypothesis Fs : List.Forall sign s.
Lemma sign_sq i : (i < d)%nat -> nth i s 0 * nth i s 0 = 1.
Proof. intros Hi. rewrite Forall_forall in Fs. destruct (Fs (nth i s 0)) as [->| ->]; [apply nth_In; lia| |]; ring. Qed.
Lemma sign_abs i : (i < d)%nat -> Rabs (nth i s 0) = 1.
Proof. intros Hi. rewrite Forall_forall in Fs. destruct (Fs (nth i s 0)) as [->| ->]; [apply nth_In; lia| |]; [apply Rabs_R1|]. rewrite Rabs_left; lra. Qed.
Lemma flip_plus x h : length x = d -> length h = d -> flip s (plus_v x h) = plus_v (flip s x) (flip s h).
Proof.
  intros Lx Lh. assert (Lp := plus_v_length x h d Lx Lh). assert (L1 := flip_len d s Ls x Lx). assert (L2 := flip_len d s Ls h Lh).
  apply (vec_ext _ _ d); [now apply flip_len|now apply plus_v_length|]. intros i Hi. rewrite flip_nth by congruence.
  rewrite !(nth_plus_v i _ _ d) by auto. rewrite !flip_nth by congruence. ring.
Qed.
Lemma norm1_flip h : length h = d -> norm1 (flip s h) = norm1 h.
Proof.
  intros Lh. rewrite !(norm1_sum _ d) by (auto; now apply flip_len). apply sumR_ext. intros i Hi. rewrite flip_nth by congruence.
  rewrite Rabs_mult, sign_abs by auto. ring.
Qed.
Lemma scalar_flip g h : length g = d -> length h = d -> scalar (flip s g) h = scalar g (flip s h).
Proof.
  intros Lg Lh. rewrite !(scalar_sum _ _ d) by (auto; now apply flip_len). apply sumR_ext. intros i Hi. rewrite !flip_nth by congruence. ring.
Qed.
Lemma grad_flip f x g : length x = d -> is_gradient d f (flip s x) g -> is_gradient d (fun y => f (flip s y)) x (flip s g).
Proof.
  intros Lx [Lg H]. split; [now apply flip_len|]. intros e He. destruct (H e He) as (del & Hd & K). exists del. split; [exact Hd|].
  intros h Lh Hh. rewrite flip_plus, scalar_flip by auto. rewrite <- (norm1_flip h) by auto. apply K; [now apply flip_len|]. now rewrite norm1_flip.
Qed.
Lemma grad_unique f x g g' : is_gradient d f x g -> is_gradient d f x g' -> g = g'.
Proof.
  intros [L H] [L' H']. apply (vec_ext _ _ d); auto. intros i Hi. destruct (Req_dec (nth i g 0) (nth i g' 0)) as [E|E]; [exact E|exfalso].
  set (e := Rabs (nth i g 0 - nth i g' 0) / 4). assert (He : 0 < e) by (unfold e; assert (0 < Rabs (nth i g 0 - nth i g' 0)) by (apply Rabs_pos_lt; lra); lra).
  destruct (H e He) as (d1 & P1 & K1). destruct (H' e He) as (d2 & P2 & K2).
  set (t := Rmin d1 d2 / 2). assert (Ht : 0 < t /\ t < d1 /\ t < d2).
  { pose proof (Rmin_l d1 d2). pose proof (Rmin_r d1 d2). assert (0 < Rmin d1 d2) by now apply Rmin_glb_lt. unfold t. lra. }
  set (h := tabulate d (fun j => unit_entry i j * t)).
  assert (Lh : length h = d) by apply tabulate_length.
  assert (Nh : norm1 h = t).
  { rewrite (norm1_sum h d Lh). rewrite (sumR_ext d _ (fun j => unit_entry i j * t)).
    - now rewrite (sumR_delta d i (fun _ => t)).
    - intros j Hj. unfold h. rewrite nth_tabulate by auto. unfold unit_entry. destruct (Nat.eqb i j); [rewrite Rmult_1_l; apply Rabs_pos_eq; lra|].
      rewrite Rmult_0_l. apply Rabs_R0. }
  assert (Sc : forall v, length v = d -> scalar v h = nth i v 0 * t).
  { intros v Lv. rewrite (scalar_sum v h d) by auto. rewrite (sumR_ext d _ (fun j => unit_entry i j * (nth j v 0 * t))).
    - now rewrite (sumR_delta d i (fun j => nth j v 0 * t)).
    - intros j Hj. unfold h. rewrite nth_tabulate by auto. ring. }
  specialize (K1 h Lh ltac:(lra)). specialize (K2 h Lh ltac:(lra)). rewrite Nh, Sc in K1, K2 by auto.
  set (A := f (plus_v x h) - f x) in *.
  assert (T : Rabs (nth i g 0 * t - nth i g' 0 * t) <= 2 * e * t).
  { replace (nth i g 0 * t - nth i g' 0 * t) with ((A - nth i g' 0 * t) - (A - nth i g 0 * t)) by ring.
    eapply Rle_trans; [apply Rabs_triang|]. rewrite Rabs_Ropp. lra. }
  rewrite <- Rmult_minus_distr_r, Rabs_mult, (Rabs_pos_eq t) in T by lra. assert (T' : Rabs (nth i g 0 - nth i g' 0) <= 2 * e) by (apply (Rmult_le_reg_r t); lra).
  unfold e in T'. assert (0 < Rabs (nth i g 0 - nth i g' 0)) by (apply Rabs_pos_lt; lra). lra.
Qed.
Lemma nth_flip_matrix A i : length A = d -> (i < d)%nat -> nth i (flip_matrix s A) [] = map (Rmult (nth i s 0)) (flip s (nth i A [])).
Proof.
  intros LA Hi. unfold flip_matrix. rewrite (nth_map_lt _ _ _ _ (0, [])) by (rewrite combine_length; lia).
  rewrite combine_nth by congruence. reflexivity.
Qed.
Lemma smooth_flipped F G H F' G' H' : smooth d F G H -> smooth d F' G' H' -> (forall y, length y = d -> F' y = F (flip s y)) ->
  forall y, length y = d -> G' y = flip s (G (flip s y)) /\ H' y = flip_matrix s (H (flip s y)).
Proof.
  intros [a1 a2 a3 a4] [b1 b2 b3 b4] E.
  assert (EG : forall y, length y = d -> G' y = flip s (G (flip s y))).
  { intros y Ly. apply (grad_unique F' y (G' y)); [now apply b1|]. apply (grad_ext d (fun y => F (flip s y)) F' y (flip s (G (flip s y))) (flip s (G (flip s y))) Ly); [intros; symmetry; now apply E|reflexivity|].
    apply grad_flip; auto. apply a1. now apply flip_len. }
  intros y Ly. split; [now apply EG|]. assert (Lf := flip_len d s Ls y Ly).
  apply (nth_ext _ _ [] []).
  - rewrite b2 by auto. unfold flip_matrix. rewrite map_length, combine_length, a2 by auto. lia.
  - intros i Hi. rewrite b2 in Hi by auto. rewrite nth_flip_matrix by auto.
    apply (grad_unique (fun y => nth i (G' y) 0) y); [now apply b3|].
    apply (grad_ext d (fun y => nth i s 0 * nth i (G (flip s y)) 0) _ y (map (Rmult (nth i s 0)) (flip s (nth i (H (flip s y)) []))) (map (Rmult (nth i s 0)) (flip s (nth i (H (flip s y)) []))) Ly).
    + intros z Lz. rewrite EG by auto. rewrite flip_nth; [reflexivity|]. rewrite (proj1 (a1 (flip s z) (flip_len d s Ls z Lz))). exact Ls.
    + reflexivity.
    + apply (grad_scale d (fun y => nth i (G (flip s y)) 0) y (flip s (nth i (H (flip s y)) [])) (nth i s 0)).
      apply (grad_flip (fun z => nth i (G z) 0) y (nth i (H (flip s y)) []) Ly). now apply a3.
Qed.
End Gradients.

(** * The grid *)
Lemma flip_zeros d s : length s = d -> flip s (repeat 0 d) = repeat 0 d.
Proof.
  intros <-. induction s as [|a s IH]; [reflexivity|]. cbn [length repeat]. unfold flip. cbn [combine map fst snd]. fold (flip s (repeat 0 (length s))).
  rewrite IH. f_equal. ring.
Qed.
Lemma flip_matrix_zeros d s : length s = d -> flip_matrix s (repeat (repeat 0 d) d) = repeat (repeat 0 d) d.
Proof.
  intros L. apply (nth_ext _ _ [] []).
  - unfold flip_matrix. rewrite map_length, combine_length, !repeat_length. lia.
  - intros i Hi. unfold flip_matrix in Hi. rewrite map_length, combine_length, repeat_length in Hi. rewrite (nth_flip_matrix d s L) by (rewrite ?repeat_length; lia).
    rewrite !nth_repeat_lt by lia. rewrite flip_zeros by auto. clear. generalize (nth i s 0) as a. intros a. induction d as [|d IH]; [reflexivity|].
    cbn [repeat map]. rewrite IH. f_equal. ring.
Qed.
Lemma C85_grid_gen b k D x phi phi1 phi2 : total_basis b k D x phi -> nodal k x phi -> smooth_basis b k D phi phi1 phi2 -> mirrored k x phi ->
  forall d f f' s, length s = d -> List.Forall sign s -> (forall y, length y = d -> f' y = f (flip s y)) ->
  exists g g', grid_of f d b = Ok g /\ grid_of f' d b = Ok g' /\
    forall y, length y = d -> List.Forall D y -> List.Forall D (flip s y) -> exists v w A,
      interpolate g (flip s y) b = Ok v /\ interpolate g' y b = Ok v /\
      interpolateDerivative g (flip s y) b = Ok w /\ interpolateDerivative g' y b = Ok (flip s w) /\
      interpolateSecondDerivative g (flip s y) b = Ok A /\ interpolateSecondDerivative g' y b = Ok (flip_matrix s A) /\ length w = d /\ square d A.
Proof.
  intros TB NB SB MB d f f' s Ls Fs Hf. destruct (Nat.eq_dec d 0) as [->|Hn].
  - destruct s as [|]; [|discriminate]. eexists. eexists. split; [reflexivity|]. split; [reflexivity|]. intros [|] Ly _ _; [|discriminate].
    cbn [flip combine map]. unfold interpolateDerivative, interpolateSecondDerivative.
    assert (E : forall h g, grid_of h 0 b = Ok g -> interpolate g [] b = Ok (h []) /\ sg_bound g = Some (h [])).
    { intros h g E. injection E as <-. split; [|reflexivity]. unfold interpolate. simpl. f_equal. rewrite Rmin_left; simpl; lra. }
    destruct (E f _ eq_refl) as (Ev & Eb). destruct (E f' _ eq_refl) as (Ev' & Eb'). exists (f []), [], []. rewrite Ev, Ev'. cbn [bind]. rewrite Eb, Eb', (Hf [] eq_refl). cbn [flip combine map]. destruct (Rlt_dec (f []) (f [])); [lra|]. do 7 (split; [reflexivity|]). split; [reflexivity|]. intros; lia.
  - assert (Hd : (0 < d)%nat) by lia. destruct (grids b k D x phi TB NB MB d Hd s Ls Fs f f' Hf) as (g & g' & m & E & E' & (D0 & S0 & B0) & (D0' & S0' & B0') & HS).
    exists g, g'. split; [exact E|]. split; [exact E'|]. intros y Ly Dy Df. assert (Lf := flip_len d s Ls y Ly).
    rewrite (interpolate_sum b k D x phi TB d Hd g m (flip s y) D0 S0 B0 Lf Df), (interpolate_sum b k D x phi TB d Hd g' m y D0' S0' B0' Ly Dy).
    rewrite (interpD_spec b k D x phi phi1 phi2 TB SB d Hd g m _ D0 S0 B0 Lf Df), (interpD_spec b k D x phi phi1 phi2 TB SB d Hd g' m y D0' S0' B0' Ly Dy).
    rewrite (interpD2_spec b k D x phi phi1 phi2 TB SB d Hd g m _ D0 S0 B0 Lf Df), (interpD2_spec b k D x phi phi1 phi2 TB SB d Hd g' m y D0' S0' B0' Ly Dy).
    assert (Sm : forall cs, smooth d (dsum phi phi1 phi2 d cs (cells k d) []) (fun y => tabulate d (fun t => dsum phi phi1 phi2 d cs (cells k d) [t] y))
      (fun y => tabulate d (fun r => tabulate d (fun s => dsum phi phi1 phi2 d cs (cells k d) [s; r] y)))).
    { intros cs. apply dsum_smooth with (k := k).
      - intros; apply (sb_first _ _ _ _ _ _ SB); auto.
      - intros; apply (sb_second _ _ _ _ _ _ SB); auto.
      - intros c0 Hc0. now apply (cells_fine k d Hd). }
    assert (HD : forall z, length z = d -> dsum phi phi1 phi2 d (sg_coefficients g') (cells k d) [] z = dsum phi phi1 phi2 d (sg_coefficients g) (cells k d) [] (flip s z)).
    { intros z Lz. assert (Lz' := flip_len d s Ls z Lz). rewrite <- !(interp_sum_dsum k phi phi1 phi2 d Hd) by auto. now apply HS. }
    destruct (smooth_flipped d s Ls Fs _ _ _ _ _ _ (Sm (sg_coefficients g)) (Sm (sg_coefficients g')) HD y Ly) as [EG EH].
    rewrite HS by auto. rewrite HD by auto. cbv beta in EG, EH. rewrite EG, EH.
    match goal with |- context [Rlt_dec ?u ?v] => destruct (Rlt_dec u v) end; eexists; eexists; eexists; (split; [reflexivity|]); (split; [reflexivity|]);
      (split; [reflexivity|]); (split; [|split; [reflexivity|split]]); auto.
    + split; [apply tabulate_length|]. split; [apply tabulate_length|]. intros i Hi. rewrite nth_tabulate by auto. apply tabulate_length.
    + now rewrite flip_zeros.
    + now rewrite flip_matrix_zeros.
    + split; [apply repeat_length|]. split; [apply repeat_length|]. intros i Hi. rewrite nth_repeat_lt by auto. apply repeat_length.
Qed.
Lemma C85_grid_main b k D x phi phi1 phi2 : total_basis b k D x phi -> nodal k x phi -> smooth_basis b k D phi phi1 phi2 -> mirrored k x phi ->
  forall d f s, length s = d -> List.Forall sign s ->
  exists g g', grid_of f d b = Ok g /\ grid_of (fun y => f (flip s y)) d b = Ok g' /\
    forall y, length y = d -> List.Forall D y -> List.Forall D (flip s y) -> exists v w A,
      interpolate g (flip s y) b = Ok v /\ interpolate g' y b = Ok v /\
      interpolateDerivative g (flip s y) b = Ok w /\ interpolateDerivative g' y b = Ok (flip s w) /\
      interpolateSecondDerivative g (flip s y) b = Ok A /\ interpolateSecondDerivative g' y b = Ok (flip_matrix s A).
Proof.
  intros TB NB SB MB d f s Ls Fs. destruct (C85_grid_gen b k D x phi phi1 phi2 TB NB SB MB d f (fun y => f (flip s y)) s Ls Fs ltac:(auto)) as (g & g' & E & E' & H).
  exists g, g'. split; [exact E|]. split; [exact E'|]. intros y Ly D1 D2. destruct (H y Ly D1 D2) as (v & w & A & H1 & H2 & H3 & H4 & H5 & H6 & _). exists v, w, A. auto 10.
Qed.

(** * The basis that the code builds *)
Lemma in_both (b D : R) x0 y : - x0 < b -> Rabs y <= b -> D = 2 * b -> y - x0 < D.
Proof. intros H1 H2 ->. apply Rabs_le_between in H2. lra. Qed.
Lemma flip_bound s y B : List.Forall sign s -> List.Forall (fun v => Rabs v <= B) y -> List.Forall (fun v => Rabs v <= B) (flip s y).
Proof.
  intros Fs. revert y. induction Fs as [|a s Ha Fs IH]; intros [|v y] H; try constructor.
  - inversion H; subst. cbn [fst snd]. destruct Ha as [->| ->]; rewrite Rabs_mult; [rewrite Rabs_R1|rewrite (Rabs_left (-1)) by lra]; lra.
  - apply IH. now inversion H.
Qed.
Lemma C85_basis_main q inverse solve L : is_normal_quantile q -> (1 <= L <= 25)%nat -> (forall d A, inverts inverse d A) -> solves_systems solve ->
  exists b, basis_new q inverse solve L = Ok b /\ forall l j, (l <= L)%nat -> (j < 2 ^ l)%nat ->
    (exists x, b_getKnot b l j = Ok x /\ b_getKnot b l (2 ^ l - 1 - j)%nat = Ok (- x)) /\
    forall y, Rabs y <= 2 ^ 31 * bandwidth q L -> exists v, b_evaluate b (- y) l j = Ok v /\ b_evaluate b y l (2 ^ l - 1 - j)%nat = Ok v.
Proof.
  intros Hq HL Inv Sol. pose proof (normal_quantile_like q Hq) as NL. pose proof (normal_quantile_fit q L Hq HL) as Fit.
  destruct (C33_full q NL L ltac:(lia) Fit inverse solve (Inv 3%nat) (Inv 4%nat) Sol) as (b & x & phi & p1 & p2 & Eb & TB & ND & SB & _ & _ & MB & X0).
  exists b. split; [exact Eb|]. intros l j Hl Hj. destruct (MB l j Hl Hj) as [M1 M2]. assert (Hj' : (2 ^ l - 1 - j < 2 ^ l)%nat) by lia. split.
  - exists (x l j). split; [now apply (tb_knot _ _ _ _ _ TB)|]. rewrite <- M1. now apply (tb_knot _ _ _ _ _ TB).
  - intros y Hy. exists (phi l j (- y)). split.
    + apply (tb_eval _ _ _ _ _ TB); auto. apply (in_both (2 ^ 31 * bandwidth q L)); [exact X0|now rewrite Rabs_Ropp|simpl; ring].
    + rewrite <- M2. apply (tb_eval _ _ _ _ _ TB); auto. apply (in_both (2 ^ 31 * bandwidth q L)); [exact X0|exact Hy|simpl; ring].
Qed.
Lemma C85_sparse_main q inverse solve L : is_normal_quantile q -> (1 <= L <= 25)%nat -> (forall d A, inverts inverse d A) -> solves_systems solve ->
  exists b, basis_new q inverse solve L = Ok b /\ forall d f s, length s = d -> List.Forall sign s ->
  exists g g', grid_of f d b = Ok g /\ grid_of (fun y => f (flip s y)) d b = Ok g' /\
    forall y, length y = d -> List.Forall (fun v => Rabs v <= 2 ^ 31 * bandwidth q L) y -> exists v w A,
      interpolate g (flip s y) b = Ok v /\ interpolate g' y b = Ok v /\
      interpolateDerivative g (flip s y) b = Ok w /\ interpolateDerivative g' y b = Ok (flip s w) /\
      interpolateSecondDerivative g (flip s y) b = Ok A /\ interpolateSecondDerivative g' y b = Ok (flip_matrix s A).
Proof.
  intros Hq HL Inv Sol. pose proof (normal_quantile_like q Hq) as NL. pose proof (normal_quantile_fit q L Hq HL) as Fit.
  destruct (C33_full q NL L ltac:(lia) Fit inverse solve (Inv 3%nat) (Inv 4%nat) Sol) as (b & x & phi & p1 & p2 & Eb & TB & ND & SB & _ & _ & MB & X0).
  exists b. split; [exact Eb|]. intros d f s Ls Fs. destruct (C85_grid_main b L _ x phi p1 p2 TB ND SB MB d f s Ls Fs) as (g & g' & E & E' & H).
  exists g, g'. split; [exact E|]. split; [exact E'|]. intros y Ly Hy.
  assert (K : forall z, List.Forall (fun v => Rabs v <= 2 ^ 31 * bandwidth q L) z -> List.Forall (fun v => v - x L 0%nat < 2 ^ 32 * bandwidth q L) z).
  { intros z. apply List.Forall_impl. intros v Hv. apply (in_both (2 ^ 31 * bandwidth q L)); [exact X0|exact Hv|simpl; ring]. }
  apply H; auto. apply K. now apply flip_bound.
Qed.
