(** The frame of a formula with subformulas. *)
From Coq Require Import String List Reals Bool Arith ZArith Permutation Lia Lra.
From Verif Require Import Model.Base Model.Family Model.GLMM Model.SplitFrame Model.Frames Model.Indexing Model.Subexpr Model.FindIndices Model.Flatten
  Model.SplitFormula Model.FindModfr Spec.Numbers Spec.IndexSpec Spec.GLMMSpec Spec.SplitSpec Spec.FramesSpec Spec.SubexprSpec Spec.FlattenSpec Spec.FindModfrSpec
  Proofs.ListLemmas Proofs.SumLemmas Proofs.SplitMain Proofs.SubexprLemmas Proofs.IndexMain Proofs.FrameMain Proofs.SubexprMain Proofs.SubMatchMain Proofs.AttachMain Proofs.FlattenMain.
Import ListNotations.
Local Open Scope R_scope.
Notation length := List.length.

(** Sums. *)
Lemma dot_sum : forall u v, dot u v = sumR (length v) (fun j => nth j u 0 * nth j v 0).
Proof.
  induction u as [|x u IH]; intros v.
  - symmetry. apply sumR_nil. intros i _. destruct i; apply Rmult_0_l.
  - destruct v as [|y v]; [reflexivity|]. cbn [dot length]. rewrite GLMMLemmas.sumR_S. cbn [nth]. now rewrite IH.
Qed.

(** The random effects that the rows of Zt belong to. *)
Definition effects (r : retrms Rnum) (theta u : list R) : list R :=
  map (fun j => sumR (length u) (fun i => LamM (filled r) theta i j * nth i u 0)) (seq 0 (cs_rows (rt_Zt _ r))).
Definition effects_of (m : modfr Rnum) (theta u : list R) : list R := match mo_re _ m with Some r => effects r theta u | None => [] end.

Lemma effects_length r theta u : length (effects r theta u) = cs_rows (rt_Zt _ r).
Proof. unfold effects. now rewrite map_length, seq_length. Qed.

Lemma part_effects (r : retrms Rnum) theta u k (z : list R) : (forall j, (j < cs_rows (rt_Zt _ r))%nat -> SplitSpec.entry (rt_Zt _ r) j k = nth j z 0) ->
  AttachMain.part r theta u k = dot z (effects r theta u).
Proof.
  intros Z. rewrite dot_sum, effects_length. unfold AttachMain.part.
  rewrite (GLMMLemmas.sumR_ext (length u) _ (fun i => sumR (cs_rows (rt_Zt Rnum r)) (fun j => nth j z 0 * (LamM (filled r) theta i j * nth i u 0)))).
  - rewrite SumLemmas.sumR_swap. apply GLMMLemmas.sumR_ext. intros j J. unfold effects. rewrite (GLMMLemmas.nth_map_seq _ _ j) by exact J.
    now rewrite GLMMLemmas.sumR_scal.
  - intros i _. rewrite <- sumR_scal_r. apply GLMMLemmas.sumR_ext. intros j J. rewrite Z by exact J. ring.
Qed.

(** A frame with the matrices of [f]. *)
Definition same_matrices (n : nat) (m : modfr Rnum) (f : mframe) : Prop :=
  mo_X _ m = mf_X f /\
  match mo_re _ m, mf_Zt f with
  | Some r, Some Zt => forall j k, (j < cs_rows (rt_Zt _ r))%nat -> (k < n)%nat -> SplitSpec.entry (rt_Zt _ r) j k = nth j (nth k Zt []) 0
  | None, None => True
  | _, _ => False
  end.
Lemma predictor_lin n m f beta theta u k : proper n m -> same_matrices n m f -> (k < n)%nat ->
  predictor m beta theta u k = nth k (lin beta (effects_of m theta u) f) 0.
Proof.
  intros P [X Z] K. unfold lin. assert (RN : rows_of f = n) by (unfold rows_of; rewrite <- X; exact (pr_X _ _ P)).
  rewrite RN, (nth_map_seq0 _ n k 0) by exact K. unfold predictor, effects_of. destruct (mo_re Rnum m) as [r|] eqn:Er; destruct (mf_Zt f) as [Zt|]; try contradiction.
  - rewrite (eta_part m r n) by (try exact K; exact (pr_re _ _ P r Er)). f_equal.
    + rewrite dot_sum. apply GLMMLemmas.sumR_ext. intros j _. unfold at2. f_equal. f_equal. f_equal. exact X.
    + apply part_effects. intros j J. now apply Z.
  - rewrite Rplus_0_r, dot_sum. apply GLMMLemmas.sumR_ext. intros j _. unfold at2. f_equal. f_equal. f_equal. exact X.
Qed.

(** The frame of a subformula. *)
Lemma dense_length m : length (dense m) = length (cs_cols m).
Proof. apply map_length. Qed.
Lemma dense_nth m c r : (c < length (cs_cols m))%nat -> (r < cs_rows m)%nat -> nth r (nth c (dense m) []) 0 = SplitSpec.entry m r c.
Proof.
  intros C Q. unfold dense. rewrite (nth_indep _ [] ((fun c => map (fun r => fold_right Rplus 0 (map snd (filter (fun e => Nat.eqb (fst e) r) c))) (seq 0 (cs_rows m))) [])) by now rewrite map_length.
  rewrite (map_nth (fun c => map (fun r => fold_right Rplus 0 (map snd (filter (fun e => Nat.eqb (fst e) r) c))) (seq 0 (cs_rows m)))).
  rewrite (nth_map_seq0 _ _ r 0) by exact Q. reflexivity.
Qed.
Lemma base_matrices n m : proper n m -> matrices (mframe_of m) /\ rows_of (mframe_of m) = n /\ mf_p (mframe_of m) = mo_p _ m /\ mf_q (mframe_of m) = nrandom m /\
  random (mframe_of m) = (match mo_re _ m with Some _ => true | None => false end) /\ same_matrices n m (mframe_of m).
Proof.
  intros P. unfold mframe_of, nrandom, random, same_matrices, rows_of, matrices, rows_of. destruct (mo_re Rnum m) as [r|] eqn:E; cbn [mf_p mf_X mf_q mf_Zt].
  - pose proof (pr_re _ _ P r E) as Q. refine (conj (conj _ (conj _ _)) (conj (pr_X _ _ P) (conj eq_refl (conj eq_refl (conj eq_refl (conj eq_refl _)))))).
    + apply Forall_forall. exact (pr_row _ _ P).
    + exact (eq_trans (dense_length _) (eq_trans (pr_cols _ _ Q) (eq_sym (pr_X _ _ P)))).
    + apply Forall_forall. intros c Hc. apply in_map_iff in Hc. destruct Hc as (x & <- & _). now rewrite map_length, seq_length.
    + intros j k J K. symmetry. apply dense_nth; [exact (eq_ind_r (fun x => (k < x)%nat) K (pr_cols _ _ Q))|exact J].
  - refine (conj (conj _ I) (conj (pr_X _ _ P) (conj eq_refl (conj eq_refl (conj eq_refl (conj eq_refl I)))))). apply Forall_forall. exact (pr_row _ _ P).
Qed.

(** The frame with the matrices computed from those of [base]. *)
Lemma with_proper sparse base n f : makes_sparse sparse -> proper n base -> matrices f -> mf_p f = mf_p (mframe_of base) -> mf_q f = mf_q (mframe_of base) ->
  random f = random (mframe_of base) ->
  let m := with_matrices sparse base f in
  proper (rows_of f) m /\ same_matrices (rows_of f) m f /\ mo_p _ m = mo_p _ base /\ ntheta m = ntheta base /\ nrandom m = nrandom base /\
  forall theta u, effects_of m theta u = effects_of base theta u.
Proof.
  intros S P [M1 M2] Ep Eq Er. destruct (base_matrices n base P) as (_ & _ & Bp & Bq & Br & _). rewrite Bp in Ep. rewrite Bq in Eq. rewrite Br in Er.
  intros m. unfold m, with_matrices, same_matrices, ntheta, nrandom, effects_of in *. unfold random in Er. destruct (mo_re Rnum base) as [r|] eqn:E; destruct (mf_Zt f) as [Zt|] eqn:EZ; try discriminate; cbn [mo_X mo_p mo_re rt_Zt rt_theta rt_Lind rt_Lambdat].
  - destruct M2 as [L M2]. destruct (S (mf_q f) Zt M2) as (S1 & S2 & S3 & S4). pose proof (pr_re _ _ P r E) as Q.
    refine (conj _ (conj (conj eq_refl _) (conj Ep (conj eq_refl (conj _ _))))).
    + constructor; cbn [mo_X mo_p mo_re].
      * reflexivity.
      * rewrite Forall_forall in M1. exact M1.
      * intros r' [= <-]. constructor; cbn [rt_Zt rt_theta rt_Lind rt_Lambdat].
        -- exact (eq_trans S2 L).
        -- intros c e Hc He. exact (eq_ind_r (fun x => (fst e < x)%nat) (S3 c e Hc He) S1).
        -- exact (eq_trans (pr_Lrows _ _ Q) (eq_sym (eq_trans S1 Eq))).
        -- exact (eq_trans (pr_Lcols _ _ Q) (eq_sym (eq_trans S1 Eq))).
        -- exact (pr_sorted _ _ Q).
        -- intros c e Hc He. exact (eq_ind_r (fun x => (fst e < x)%nat) (pr_L _ _ Q c e Hc He) (eq_trans S1 Eq)).
        -- exact (pr_Lind _ _ Q).
        -- exact (pr_range _ _ Q).
    + intros j k J K. apply S4; [exact (eq_ind (cs_rows (sparse (mf_q f) Zt)) (fun x => (j < x)%nat) J _ S1)|rewrite L; exact K].
    + exact (eq_trans S1 Eq).
    + intros theta u. unfold effects, filled. cbn [rt_Zt rt_Lambdat rt_Lind]. exact (f_equal (fun q => map _ (seq 0 q)) (eq_trans S1 Eq)).
  - refine (conj _ (conj (conj eq_refl I) (conj Ep (conj eq_refl (conj eq_refl (fun _ _ => eq_refl)))))).
    constructor; cbn [mo_X mo_p mo_re]; [reflexivity|rewrite Forall_forall in M1; exact M1|discriminate].
Qed.

(** The number of indices. *)
Lemma loop_length subvar subform subexpr : forall n a d ii idx st, foldM (one_direction subvar subform subexpr) (seq a n) (d, ii, idx) = Ok st -> length (snd st) = (length idx + n)%nat.
Proof.
  induction n as [|n IH]; intros a d ii idx st H; cbn [seq foldM] in H; [injection H as <-; cbn [snd]; lia|].
  apply bind_Ok in H. destruct H as (st1 & H1 & H). destruct st1 as [[d1 ii1] idx1]. apply IH in H. rewrite H. clear H IH.
  unfold one_direction in H1. apply bind_Ok in H1. destruct H1 as (is & _ & H1). apply bind_Ok in H1. destruct H1 as (cs & _ & H1).
  apply bind_Ok in H1. destruct H1 as (ins & _ & H1). destruct ins as [|ind [|? ?]]; try discriminate.
  apply bind_Ok in H1. destruct H1 as ([d2 ii2] & _ & H1). apply bind_Ok in H1. destruct H1 as (ix & _ & H1). injection H1 as _ _ <-. rewrite app_length. cbn [length]. lia.
Qed.
Lemma indices_length subvar subform subexpr d d' idx : find_indices_subform subvar subform subexpr d = Ok (d', idx) -> find_dim_sub subvar None subexpr = Ok (Some (length idx)).
Proof.
  unfold find_indices_subform. intros H. apply bind_Ok in H. destruct H as (o & E & H). apply bind_Ok in H. destruct H as (o' & _ & H). rewrite E.
  destruct o as [n|], o' as [n'|]; try discriminate. destruct (Nat.eqb n' n); [|discriminate]. apply bind_Ok in H. destruct H as ([[d1 ii] idx1] & H1 & H). injection H as _ <-.
  apply loop_length in H1. cbn [snd length Nat.add] in H1. now rewrite H1.
Qed.

(** The data that the search for the indices leaves: other factors, nothing else. *)
Definition kept (d d' : rdata) : Prop := Forall2 (fun x y => fst y = fst x /\ (snd y = snd x \/ is_factor (snd y) = true)) d d'.
Lemma kept_refl d : kept d d.
Proof. induction d; constructor; auto. Qed.
Lemma kept_trans d1 d2 d3 : kept d1 d2 -> kept d2 d3 -> kept d1 d3.
Proof.
  intros H. revert d3. induction H as [|x y l l' [A B] H IH]; intros d3 K; inversion K as [|? z ? l3 [A' B'] K']; subst; constructor; [|now apply IH].
  split; [congruence|]. destruct B' as [B'|B']; [rewrite B'; exact B|now right].
Qed.
Lemma kept_replace d s x : is_factor x = true -> kept d (replace d s x).
Proof.
  intros F. unfold replace. induction d as [|nv d IH]; constructor; [|exact IH]. destruct (String.eqb (fst nv) s); cbn [fst snd]; auto.
Qed.
Lemma factor_is levels x y : factor levels x = Ok y -> is_factor y = true.
Proof. unfold factor. intros H. apply bind_Ok in H. destruct H as (ls & _ & H). destruct (duplicated ls); [discriminate|]. now injection H as <-. Qed.
Lemma kept_factors levels : forall names xs fs d, mapM (factor levels) xs = Ok fs ->
  kept d (fold_left (fun d nx => replace d (fst nx) (snd nx)) (combine names fs) d).
Proof.
  induction names as [|s names IH]; intros xs fs d H; [apply kept_refl|]. destruct xs as [|x xs]; cbn [mapM] in H.
  - injection H as <-. apply kept_refl.
  - apply bind_Ok in H. destruct H as (f & F & H). apply bind_Ok in H. destruct H as (fs' & H & E). injection E as <-. cbn [combine fold_left fst snd].
    eapply kept_trans; [apply kept_replace, (factor_is _ _ _ F)|exact (IH _ _ _ H)].
Qed.
Lemma loop_kept subvar subform subexpr : forall n a d ii idx st, foldM (one_direction subvar subform subexpr) (seq a n) (d, ii, idx) = Ok st -> kept d (fst (fst st)).
Proof.
  induction n as [|n IH]; intros a d ii idx st H; cbn [seq foldM] in H; [injection H as <-; apply kept_refl|].
  apply bind_Ok in H. destruct H as (st1 & H1 & H). destruct st1 as [[d1 ii1] idx1]. apply IH in H. apply (kept_trans _ d1); [|exact H]. clear H IH.
  unfold one_direction in H1. apply bind_Ok in H1. destruct H1 as (is & _ & H1). apply bind_Ok in H1. destruct H1 as (cs & _ & H1).
  apply bind_Ok in H1. destruct H1 as (ins & _ & H1). destruct ins as [|ind [|? ?]]; try discriminate.
  apply bind_Ok in H1. destruct H1 as ([d2 ii2] & E & H1). apply bind_Ok in H1. destruct H1 as (ix & _ & H1). injection H1 as <- _ _.
  destruct (lookup d ind) as [lv|].
  - apply bind_Ok in E. destruct E as (fs & F & E). injection E as <- _. exact (kept_factors lv _ _ _ _ F).
  - destruct (forallb is_factor cs); [|destruct (forallb is_numeric cs); [|discriminate]; injection E as <- _; apply kept_refl].
    match type of E with (if ?b then _ else _) = _ => destruct b end; [|discriminate]. injection E as <- _. apply kept_refl.
Qed.
Lemma indices_kept subvar subform subexpr d d' idx : find_indices_subform subvar subform subexpr d = Ok (d', idx) -> kept d d'.
Proof.
  unfold find_indices_subform. intros H. apply bind_Ok in H. destruct H as (o & _ & H). apply bind_Ok in H. destruct H as (o' & _ & H).
  destruct o as [n|], o' as [n'|]; try discriminate. destruct (Nat.eqb n' n); [|discriminate]. apply bind_Ok in H. destruct H as ([[d1 ii] idx1] & H1 & H). injection H as <- _.
  exact (loop_kept _ _ _ _ _ _ _ _ _ H1).
Qed.
Lemma updated_columns : forall data d, kept (columns data) d -> with_columns data d (updated data d).
Proof.
  induction data as [|[s v] data IH]; intros d K; inversion K as [|? [t c] ? d' [A B] K']; subst; cbn [fst snd] in *; [split; [reflexivity|constructor]|].
  destruct (IH d' K') as [E F]. subst t. split.
  - unfold updated, columns in *. cbn [combine map fst snd]. rewrite E. f_equal. destruct B as [->|B]; [destruct v; reflexivity|destruct c; try discriminate; reflexivity].
  - unfold updated in *. cbn [combine map fst snd]. constructor; [|exact F]. destruct c; cbn [snd]; eauto.
Qed.

(** The response of the flat subformula. *)
Lemma grid_length' l : List.Forall (fun n => (0 <= n)%Z) l -> Z.of_nat (length (grid l)) = product l.
Proof.
  induction 1 as [|n l Hn Hl IH]; [reflexivity|]. cbn [grid product fold_right]. fold (product l). rewrite (concat_uniform_length _ (Z.to_nat n)).
  - rewrite map_length. lia.
  - intros x Hx. apply in_map_iff in Hx. destruct Hx as (t & <- & _). rewrite map_length. unfold upto. now rewrite map_length, seq_length.
Qed.
Lemma fetch_response indices s cov : List.Forall (fun n => (0 <= n)%Z) (map snd indices) ->
  exists a, fetch R (data_subform R IZR 0 indices s cov) s = Ok a /\ length (a_elems R a) = length (grid (map snd indices)).
Proof.
  intros P. unfold fetch, data_subform. rewrite find_app.
  match goal with |- context [find ?p (map ?g ?l)] => destruct (find p (map g l)) as [nv|] eqn:E end.
  - apply find_some in E. destruct E as [E _]. apply in_map_iff in E. destruct E as (k & <- & _). eexists. split; [reflexivity|]. cbn [snd vector a_elems].
    unfold grid_column. now rewrite map_length, outer_grid.
  - cbn [find fst]. rewrite String.eqb_refl. eexists. split; [reflexivity|]. cbn [snd vector a_elems]. rewrite repeat_length. apply Nat2Z.inj. rewrite (grid_length' _ P).
    fold (product (map snd indices)). rewrite Z2Nat.id; [reflexivity|]. rewrite <- (grid_length' _ P). lia.
Qed.

(** Which expression belongs to which subformula. *)
Definition first (subvars : list string) (e : rexpr) : string := hd ""%string (find_vars subvars e).
Lemma filter_firsts (f : rexpr -> bool) es : map snd (filter (fun fe => fst fe) (combine (map f es) es)) = filter f es.
Proof. induction es as [|e es IH]; [reflexivity|]. cbn [map combine filter fst]. destruct (f e); cbn [map snd]; now rewrite IH. Qed.
Lemma match_spec subvars subexprs subs : subvars <> [] -> match_subform_subexpr subvars subexprs = Ok subs ->
  (forall e, In e subexprs -> In (first subvars e) subvars /\ occurs (first subvars e) e = true) /\
  Forall2 (fun s o => forall e, o = Some e -> filter (fun x => String.eqb (first subvars x) s) subexprs = [e]) subvars subs.
Proof.
  intros N H. unfold match_subform_subexpr in H. apply bind_Ok in H. destruct H as (_ & _ & H). apply mapM_Forall2 in H.
  assert (NE : forall e, In e subexprs -> find_vars subvars e <> []).
  { inversion H as [E0|s o ss os H' _ E0 E1]; [congruence|]. clear H. rename H' into H. unfold add_subexpr in H. apply bind_Ok in H. destruct H as (fs & H & _). intros e He Q.
    destruct (mapM_In _ _ _ (find_vars (s :: ss) e) H) as (b & Hb & _); [first [now apply in_map|rewrite E0; now apply in_map|rewrite <- E0; now apply in_map]|]. first [rewrite Q in Hb|rewrite E0, Q in Hb|rewrite <- E0 in Q; rewrite Q in Hb|rewrite <- E0 in Hb; rewrite Q in Hb]. discriminate. }
  split.
  - intros e He. apply find_vars_In. specialize (NE e He). unfold first. destruct (find_vars subvars e); [easy|]. now left.
  - revert H. generalize subvars at 2 4. intros ss H. induction H as [|s o ss os H _ IH]; constructor; [|exact IH]. intros e ->.
    unfold add_subexpr in H. apply bind_Ok in H. destruct H as (fs & Hf & H).
    assert (F : fs = map (fun x => String.eqb (first subvars x) s) subexprs).
    { apply mapM_Forall2 in Hf. clear -Hf NE. remember (map (find_vars subvars) subexprs) as l eqn:El. revert subexprs NE El. induction Hf as [|w b l fs H _ IH]; intros [|e es] NE El; try discriminate; [reflexivity|].
      cbn [map] in El. injection El as -> ->. cbn [map]. rewrite (IH es) by (try reflexivity; intros x Hx; apply NE; now right). f_equal. unfold first.
      destruct (find_vars subvars e); [discriminate|]. injection H as <-. reflexivity. }
    rewrite <- (filter_firsts (fun x => String.eqb (first subvars x) s) subexprs), <- F. destruct (filter _ (combine fs subexprs)) as [|fe [|? ?]]; try discriminate. injection H as <-. reflexivity.
Qed.

(** All the expressions are used, once. *)
Lemma partition_keys (key : rexpr -> string) ks : NoDup ks -> forall l, (forall x, In x l -> In (key x) ks) ->
  Permutation (concat (map (fun k => filter (fun x => String.eqb (key x) k) l) ks)) l.
Proof.
  induction 1 as [|k ks Hk Hd IH]; intros l Hl.
  - destruct l as [|x l]; [constructor|]. destruct (Hl x (or_introl eq_refl)).
  - cbn [map concat]. set (l2 := filter (fun x => negb (String.eqb (key x) k)) l).
    assert (Q : map (fun k0 => filter (fun x => String.eqb (key x) k0) l) ks = map (fun k0 => filter (fun x => String.eqb (key x) k0) l2) ks).
    { apply map_ext_in. intros k' H'. unfold l2. clear -H' Hk. induction l as [|x l IHl]; [reflexivity|]. cbn [filter]. destruct (String.eqb_spec (key x) k) as [E|E]; cbn [negb filter].
      - destruct (String.eqb_spec (key x) k') as [E'|_]; [congruence|exact IHl].
      - rewrite IHl. reflexivity. }
    rewrite Q. etransitivity; [apply Permutation_app_head, IH|].
    + intros x Hx. apply filter_In in Hx. destruct Hx as [Hx Nx]. destruct (Hl x Hx) as [E|H]; [cbv beta in Nx; rewrite <- E, String.eqb_refl in Nx; discriminate|exact H].
    + unfold l2. clear. induction l as [|x l IHl]; [constructor|]. cbn [filter]. destruct (String.eqb (key x) k); cbn [negb app]; [now constructor|].
      etransitivity; [apply Permutation_sym, Permutation_middle|]. now constructor.
Qed.

(** One subformula. *)
Lemma plain_environment data : plain (environment data).
Proof.
  intros s v H. unfold environment in H. apply in_flat_map in H. destruct H as ([n x] & _ & H). cbn [fst snd] in H.
  destruct x as [c l|w d|w]; cbn [In] in H; [destruct H as [H|[]]|destruct H as [H|[]]|destruct H]; injection H as _ <-; exact I.
Qed.
Lemma flat_shape d subform flat s : find_subvar subform = Ok s -> flatten_formula d subform = Ok flat -> exists rhs, flat = Call [Name "~"; Name s; rhs].
Proof.
  unfold flatten_formula. intros -> H. cbn [bind] in H. destruct subform as [|n|xs]; try discriminate.
  destruct xs as [|[|f|] [|lhs [|rhs [|]]]]; try discriminate; try (repeat (destruct f as [|[[] [] [] [] [] [] [] []] f]; try discriminate)).
  all: try discriminate. injection H as <-. destruct (1 <? d)%nat; [|eexists; reflexivity]. exists (matrix_indexing rhs). reflexivity.
Qed.

Section Part.
Variable other : string -> list (list R) -> outcome (list R).
Variable parse_subformula : rexpr -> variables R -> outcome (modfr Rnum).
Variable sparse : nat -> list (list R) -> csc R.
Hypothesis HS : makes_sparse sparse.
Hypothesis HF : makes_frames parse_subformula.

(** What parse_sub makes of a part. *)
Definition made (p : FindModfrSpec.part) (x : modfr Rnum) : Prop :=
  exists f, x = with_matrices sparse (pa_frame p) f /\ proper (length (grid (pa_dims p))) (pa_frame p) /\
    find_dim_sub (pa_var p) None (pa_expr p) = Ok (Some (length (pa_dims p))) /\
    parse_sub other (pa_var p) (mframe_of (pa_frame p)) (pa_dims p) (environment (pa_data p)) (pa_expr p) = Ok (Frame f).

Lemma part_frame data subexprs subform s e x : find_subvar subform = Ok s -> In e subexprs -> occurs s e = true ->
  parse_sub_full other parse_subformula sparse data subform (Some e) = Ok x ->
  exists p, part_of parse_subformula data subexprs subform p /\ pa_var p = s /\ pa_expr p = e /\ made p x.
Proof.
  intros S I O H. unfold parse_sub_full in H. rewrite S in H. cbn [bind] in H. apply bind_Ok in H. destruct H as ([d idx] & E & H). cbn [fst snd] in H.
  set (indices := map (fun ni : string * index => (fst ni, index_length (snd ni))) idx) in *. apply bind_Ok in H. destruct H as (flat & Ef & H).
  apply bind_Ok in H. destruct H as (base & Eb & H). apply bind_Ok in H. destruct H as (v & Ev & H). destruct v as [| |f|]; try discriminate. injection H as <-.
  assert (P : List.Forall (fun n => (0 <= n)%Z) (map snd indices)).
  { unfold indices. rewrite map_map. apply Forall_forall. intros z Hz. apply in_map_iff in Hz. destruct Hz as (ni & <- & _). cbn [snd]. destruct (snd ni); cbn [index_length]; lia. }
  exists (mkPart s e indices (updated data d) base). split; [|split; [reflexivity|split; [reflexivity|]]].
  - constructor; cbn [pa_var pa_expr pa_indices pa_data pa_frame]; [exact S|exact I|exact O|exists d, idx; refine (conj E (conj eq_refl (updated_columns _ _ (indices_kept _ _ _ _ _ _ E))))|exists flat; now split].
  - exists f. split; [reflexivity|]. cbn [pa_var pa_expr pa_frame pa_data]. unfold pa_dims. cbn [pa_indices]. split; [|split; [|exact Ev]].
    + destruct (flat_shape _ _ _ _ S Ef) as (rhs & ->). destruct (fetch_response indices s (covariates (updated data d)) P) as (a & Ea & La). rewrite <- La.
      exact (HF s rhs _ base a Eb Ea).
    + rewrite (indices_length _ _ _ _ _ _ E). unfold indices. now rewrite !map_length.
Qed.

Lemma part_usable p x : made p x -> usable other p ->
  proper (length (mo_X _ x)) x /\ mo_p _ x = mo_p _ (pa_frame p) /\ ntheta x = ntheta (pa_frame p) /\ nrandom x = nrandom (pa_frame p) /\
  forall q, exists v, sub_term other p q = Ok v /\ length v = length (mo_X _ x) /\
    forall k, (k < length (mo_X _ x))%nat -> predictor x (fst (fst q)) (snd (fst q)) (snd q) k = nth k v 0.
Proof.
  intros (f & -> & P & D & E) U. set (N := length (grid (pa_dims p))) in *. destruct (base_matrices N (pa_frame p) P) as (B1 & B2 & B3 & B4 & B5 & B6).
  assert (L : forall beta theta u, lin beta (effects_of (pa_frame p) theta u) (mframe_of (pa_frame p)) = predictors p beta theta u).
  { intros beta theta u. apply (nth_ext _ _ 0 0); [rewrite lin_length; unfold predictors; rewrite map_length, seq_length; exact B2|].
    intros k K. rewrite lin_length, B2 in K. rewrite <- (predictor_lin N (pa_frame p) _ _ _ _ k P B6 K). unfold predictors. fold N. now rewrite (nth_map_seq0 _ N k 0). }
  assert (X : exists flat, extract_to_flatten (pa_var p) (pa_expr p) = Ok flat).
  { unfold parse_sub in E. apply bind_Ok in E. destruct E as (? & _ & E). apply bind_Ok in E. destruct E as (fl & E & _). now exists fl. }
  destruct X as [flat X].
  assert (G : forall beta theta u, SubexprSpec.meaning other (environment (pa_data p)) (pa_var p) (pa_dims p) (predictors p beta theta u) (pa_expr p) = Ok (lin beta (effects_of (pa_frame p) theta u) f) /\
    matrices f /\ mf_p f = mf_p (mframe_of (pa_frame p)) /\ mf_q f = mf_q (mframe_of (pa_frame p)) /\ random f = random (mframe_of (pa_frame p))).
  { intros beta theta u. rewrite <- L. apply (C41_linear_main other (environment (pa_data p)) (pa_var p) (mframe_of (pa_frame p)) (pa_dims p) (pa_expr p) flat f beta _ B1 B2 (plain_environment _) D X
      (us_clash _ _ U flat X) (us_function _ _ U) (us_subscripts _ _ U)); [|exact E]. rewrite B5, L. apply (us_multipliers _ _ U). }
  destruct (G [] [] []) as (_ & M & Mp & Mq & Mr). destruct (with_proper sparse (pa_frame p) N f HS P M Mp Mq Mr) as (W1 & W2 & W3 & W4 & W5 & W6).
  change (length (mo_X Rnum (with_matrices sparse (pa_frame p) f))) with (rows_of f).
  refine (conj W1 (conj W3 (conj W4 (conj W5 _)))). intros [[beta theta] u]. exists (lin beta (effects_of (pa_frame p) theta u) f). cbn [fst snd].
  refine (conj (proj1 (G beta theta u)) (conj (lin_length _ _ _) _)). intros k K. rewrite <- W6. exact (predictor_lin _ _ _ _ _ _ _ W1 W2 K).
Qed.
End Part.

(** Frames that are put together have as many rows. *)
Lemma concat_rows (m1 m2 m : modfr Rnum) : concatenate_frames Rnum m1 m2 = Ok m -> length (mo_X _ m1) = length (mo_X _ m2) /\ length (mo_X _ m) = length (mo_X _ m1).
Proof.
  unfold concatenate_frames. intros H. apply bind_Ok in H. destruct H as (X & HX & H). apply bind_Ok in H. destruct H as (re & _ & H). injection H as <-. cbn [mo_X].
  destruct (cbind_inv _ _ _ _ HX) as [E ->]. split; [exact E|]. rewrite map_length, combine_length. lia.
Qed.
Lemma attach_rows (m0 : modfr Rnum) subs m : attach_subframes Rnum m0 subs = Ok m -> forall x, In x subs -> length (mo_X _ x) = length (mo_X _ m0).
Proof.
  unfold attach_subframes. destruct subs as [|s ss]; [discriminate|]. intros H. apply bind_Ok in H. destruct H as (c & Hc & H). apply concat_rows in H. destruct H as [H _]. rewrite H. clear H.
  assert (A : length (mo_X _ c) = length (mo_X _ s) /\ forall x, In x ss -> length (mo_X _ x) = length (mo_X _ s)).
  { revert s Hc. induction ss as [|y ss IH]; intros s Hc; cbn [foldM] in Hc; [injection Hc as <-; split; [reflexivity|intros x []]|].
    apply bind_Ok in Hc. destruct Hc as (s' & H & Hc). apply concat_rows in H. destruct H as [H1 H2]. destruct (IH s' Hc) as [H3 H4].
    split; [congruence|]. intros x [<-|Hx]; [congruence|rewrite (H4 x Hx); exact H2]. }
  destruct A as [A1 A2]. intros x [<-|Hx]; [congruence|rewrite (A2 x Hx); congruence].
Qed.

Lemma make_parts other parse_subformula sparse data subexprs all : makes_frames parse_subformula ->
  (forall e, In e subexprs -> In (first all e) all /\ occurs (first all e) e = true) ->
  forall subforms subvars, Forall2 (fun f s => find_subvar f = Ok s) subforms subvars -> forall subs xs,
  Forall2 (fun s o => forall e, o = Some e -> filter (fun x => String.eqb (first all x) s) subexprs = [e]) subvars subs ->
  Forall2 (fun fs x => parse_sub_full other parse_subformula sparse data (fst fs) (snd fs) = Ok x) (combine subforms subs) xs ->
  exists parts, Forall2 (part_of parse_subformula data subexprs) subforms parts /\ map pa_var parts = subvars /\
    Forall2 (fun p s => filter (fun x => String.eqb (first all x) s) subexprs = [pa_expr p]) parts subvars /\ Forall2 (made other sparse) parts xs.
Proof.
  intros HF M1 subforms subvars Ev. induction Ev as [|f s fs ss Es _ IH]; intros subs xs M2 Ex.
  - inversion M2; subst. inversion Ex; subst. exists []. repeat split; constructor.
  - inversion M2 as [|s1 o ss1 os Ho Hos]; subst. cbn [combine] in Ex. inversion Ex as [|fo x fos xs' Hx Hxs]; subst. destruct (IH os xs' Hos Hxs) as (parts & P1 & P2 & P3 & P4).
    cbn [fst snd] in Hx. destruct o as [e|]; [|discriminate Hx]. specialize (Ho e eq_refl).
    assert (Ie : In e (filter (fun x => String.eqb (first all x) s) subexprs)) by (rewrite Ho; now left). apply filter_In in Ie. destruct Ie as [Ie Fe]. apply String.eqb_eq in Fe.
    destruct (M1 e Ie) as [_ Oe]. rewrite Fe in Oe.
    destruct (part_frame other parse_subformula sparse HF data subexprs f s e x Es Ie Oe Hx) as (p & Pp & <- & Pe & Pm).
    exists (p :: parts). split; [now constructor|]. split; [cbn [map]; now rewrite P2|]. split; [|now constructor]. constructor; [now rewrite Pe|exact P3].
Qed.

Theorem C74_main other parse_formula parse_subformula sparse formula subforms data form0 subexprs m :
  makes_sparse sparse -> makes_frames parse_subformula ->
  split_formula formula = Ok (form0, subexprs) -> subexprs <> [] ->
  find_modfr_glmm other parse_formula parse_subformula sparse formula subforms data = Ok m ->
  exists m0 parts, parse_formula form0 = Ok m0 /\ Forall2 (part_of parse_subformula data subexprs) subforms parts /\
  (NoDup (map pa_var parts) -> Permutation (map pa_expr parts) subexprs) /\
  forall n, proper n m0 -> List.Forall (usable other) parts ->
    proper n m /\ mo_response _ m = mo_response _ m0 /\ mo_weights _ m = mo_weights _ m0 /\
    forall q0 qs, fit m0 q0 -> Forall2 (fun p q => fit (pa_frame p) q) parts qs ->
    exists vs, Forall2 (fun pq v => sub_term other (fst pq) (snd pq) = Ok v /\ length v = n) (combine parts qs) vs /\
    forall k, (k < n)%nat -> predictor m (all_beta (q0 :: qs)) (all_theta (q0 :: qs)) (all_u (q0 :: qs)) k =
      predictor m0 (fst (fst q0)) (snd (fst q0)) (snd q0) k + fold_right Rplus 0 (map (fun v => nth k v 0) vs).
Proof.
  intros HS HF ES NE H. unfold find_modfr_glmm in H. rewrite ES in H. cbn [bind fst snd] in H. apply bind_Ok in H. destruct H as (m0 & E0 & H).
  assert (H' : (subvars <- mapM find_subvar subforms ;; subs <- match_subform_subexpr subvars subexprs ;;
    modfr_list <- mapM (fun fs => parse_sub_full other parse_subformula sparse data (fst fs) (snd fs)) (combine subforms subs) ;; attach_subframes Rnum m0 modfr_list) = Ok m)
    by (destruct subexprs; [easy|exact H]). clear H. rename H' into H.
  apply bind_Ok in H. destruct H as (subvars & Ev & H). apply bind_Ok in H. destruct H as (subs & Es & H). apply bind_Ok in H. destruct H as (xs & Ex & H).
  assert (Nv : subvars <> []).
  { intros ->. apply mapM_Forall2 in Ev. inversion Ev; subst. cbn in Ex. injection Ex as <-. discriminate H. }
  destruct (match_spec subvars subexprs subs Nv Es) as [M1 M2].
  apply mapM_Forall2 in Ev. apply mapM_Forall2 in Ex.
  assert (Q : exists parts, Forall2 (part_of parse_subformula data subexprs) subforms parts /\ map pa_var parts = subvars /\
    Forall2 (fun p s => filter (fun x => String.eqb (first subvars x) s) subexprs = [pa_expr p]) parts subvars /\ Forall2 (made other sparse) parts xs).
  { exact (make_parts other parse_subformula sparse data subexprs subvars HF M1 subforms subvars Ev subs xs M2 Ex). }
  destruct Q as (parts & P1 & P2 & P3 & P4). exists m0, parts. refine (conj E0 (conj P1 (conj _ _))).
  - intros D. assert (C : concat (map (fun k => filter (fun x => String.eqb (first subvars x) k) subexprs) subvars) = map pa_expr parts).
    { clear -P3. revert P3. generalize (first subvars). intros g P3. induction P3 as [|p s ps ss Hp _ IH]; [reflexivity|]. cbn [map concat]. rewrite Hp. cbn [app]. f_equal. exact IH. }
    rewrite <- C. apply partition_keys; [rewrite <- P2; exact D|]. intros x Hx. apply (M1 x Hx).
  - intros n P U. pose proof (attach_rows _ _ _ H) as RW. pose proof (pr_X _ _ P) as LX.
    assert (PX : List.Forall (proper n) xs /\ Forall2 (fun p x => mo_p _ x = mo_p _ (pa_frame p) /\ ntheta x = ntheta (pa_frame p) /\ nrandom x = nrandom (pa_frame p) /\
      forall q, exists v, sub_term other p q = Ok v /\ length v = n /\ forall k, (k < n)%nat -> predictor x (fst (fst q)) (snd (fst q)) (snd q) k = nth k v 0) parts xs).
    { clear -P4 U RW LX HS. induction P4 as [|p x ps xs Hp _ IH]; [split; constructor|]. inversion U as [|? ? Up Us]; subst.
      destruct (part_usable other sparse HS p x Hp Up) as (Q1 & Q2 & Q3 & Q4 & Q5). rewrite (RW x (or_introl eq_refl)) in Q1, Q5.
      destruct (IH Us (fun y Hy => RW y (or_intror Hy))) as [I1 I2]. split; [constructor; assumption|]. constructor; [|exact I2]. repeat split; assumption. }
    destruct PX as [PX PP]. assert (NX : xs <> []) by (intros ->; discriminate H).
    destruct (C42_attach_main n m0 xs P NX PX) as (m' & Hm & Pm & Rm & Wm & Gm). assert (m' = m) by congruence. subst m'.
    refine (conj Pm (conj Rm (conj Wm _))). intros q0 qs F0 Fq.
    assert (V : exists vs, Forall2 (fun pq v => sub_term other (fst pq) (snd pq) = Ok v /\ length v = n) (combine parts qs) vs /\
      Forall2 (fun x p => length (fst (fst p)) = mo_p _ x /\ length (snd (fst p)) = ntheta x /\ length (snd p) = nrandom x) xs qs /\
      forall k, (k < n)%nat -> map (fun xp => predictor (fst xp) (fst (fst (snd xp))) (snd (fst (snd xp))) (snd (snd xp)) k) (combine xs qs) = map (fun v => nth k v 0) vs).
    { clear -PP Fq. revert qs Fq. induction PP as [|p x ps xs (A1 & A2 & A3 & A4) _ IH]; intros qs Fq; inversion Fq as [|? q ? qs' Hq Hqs]; subst.
      - exists []. split; [constructor|]. split; [constructor|]. reflexivity.
      - destruct (IH qs' Hqs) as (vs & V1 & V2 & V3). destruct (A4 q) as (v & S1 & S2 & S3). destruct Hq as (B1 & B2 & B3). exists (v :: vs). cbn [combine fst snd].
        split; [constructor; [now split|exact V1]|]. split; [constructor; [rewrite A1, A2, A3; now repeat split|exact V2]|].
        intros k K. cbn [map fst snd]. now rewrite (S3 k K), (V3 k K). }
    destruct V as (vs & V1 & V2 & V3). exists vs. split; [exact V1|]. intros k K. unfold all_beta, all_theta, all_u.
    rewrite (Gm (q0 :: qs) k K) by (constructor; [exact F0|exact V2]). cbn [combine map fold_right fst snd]. f_equal. exact (f_equal (fold_right Rplus 0) (V3 k K)).
Qed.

(** The rows of the frame of a subformula. *)
Lemma column_value fn indices s lhs data V n x g : described R indices s data V -> subscripted s lhs -> suitable fn indices V x -> n = length (grid (map snd indices)) ->
  (forall x', flatten_formula (length indices) (Call [Name "~"; lhs; x]) = Ok (Call [Name "~"; Name s; x']) -> has_values fn (data_subform R IZR 0 indices s data) n x' g) ->
  forall r t, nth_error (grid (map snd indices)) r = Some t -> g r = number (value_at fn V t x).
Proof.
  intros D S (U1 & U2 & U3) -> H r t T.
  destruct (C72_rows_main R (fun c => c) to_int fn IZR 0 indices s data V lhs x D S U1 U2 U3) as (x' & v & F & E & _ & G).
  destruct (H x' F) as (a & Ea & Ga). rewrite E in Ea. injection Ea as <-. cbn [vector a_elems] in Ga.
  specialize (G r t T). rewrite Ga in G by (apply nth_error_Some; congruence). unfold value_at. rewrite <- G. reflexivity.
Qed.

Theorem C74_rows_main fn indices s lhs data V xs zs m beta theta u r t :
  described R indices s data V -> subscripted s lhs -> frame_for fn indices s lhs data xs zs m ->
  (forall x, In x xs \/ In x zs -> suitable fn indices V x) -> length beta = length xs ->
  nth_error (grid (map snd indices)) r = Some t ->
  predictor m beta theta u r = sumR (length xs) (fun c => nth c beta 0 * number (value_at fn V t (nth c xs (Const 0)))) +
    sumR (length zs) (fun j => effect m theta u j * number (value_at fn V t (nth j zs (Const 0)))).
Proof.
  intros D S [FP Fp Fq FX FZ] U L T. assert (K : (r < length (grid (map snd indices)))%nat) by (apply nth_error_Some; congruence).
  assert (AX : forall c, (c < length xs)%nat -> at2 (mo_X _ m) r c = number (value_at fn V t (nth c xs (Const 0)))).
  { intros c C. refine (column_value fn indices s lhs data V _ (nth c xs (Const 0)) (fun r => at2 (mo_X Rnum m) r c) D S (U _ (or_introl (nth_In _ _ C))) eq_refl _ r t T).
    intros x' F. exact (FX c _ x' (nth_error_nth' _ _ C) F). }
  assert (AZ : forall j, (j < length zs)%nat -> Zt_at m j r = number (value_at fn V t (nth j zs (Const 0)))).
  { intros j C. refine (column_value fn indices s lhs data V _ (nth j zs (Const 0)) (fun r => Zt_at m j r) D S (U _ (or_intror (nth_In _ _ C))) eq_refl _ r t T).
    intros x' F. exact (FZ j _ x' (nth_error_nth' _ _ C) F). }
  unfold predictor, Zt_at, effect, nrandom in *. destruct (mo_re Rnum m) as [re|] eqn:E.
  - pose proof (pr_re _ _ FP re E) as Q. rewrite (eta_part m re _ beta theta u r Q K). f_equal.
    + rewrite L. apply GLMMLemmas.sumR_ext. intros c C. rewrite (AX c C). apply Rmult_comm.
    + rewrite (part_effects re theta u r (map (fun j => SplitSpec.entry (rt_Zt _ re) j r) (seq 0 (cs_rows (rt_Zt _ re))))).
      * rewrite dot_sum, effects_length. etransitivity; [|exact (f_equal (fun q => sumR q _) Fq)]. apply GLMMLemmas.sumR_ext. intros j J.
        rewrite (nth_map_seq0 _ _ j 0) by exact J. unfold effects. rewrite (nth_map_seq0 _ _ j 0) by exact J.
        assert (J' : (j < length zs)%nat) by (rewrite <- Fq; exact J). rewrite (AZ j J'), Rmult_comm. f_equal. apply GLMMLemmas.sumR_ext. intros i _.
        now rewrite (Lam_filled m re _ theta i j Q).
      * intros j J. symmetry. now rewrite (nth_map_seq0 _ _ j 0).
  - rewrite (sumR_nil (length zs)) by (intros j _; apply Rmult_0_l). rewrite Rplus_0_r, L. apply GLMMLemmas.sumR_ext. intros c C. rewrite (AX c C). apply Rmult_comm.
Qed.
