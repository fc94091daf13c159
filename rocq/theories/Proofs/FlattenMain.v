(** Covariates of flat subformulas row by row. *)
From Coq Require Import String List Reals Bool Arith ZArith Lia.
From Verif Require Import Model.Base Model.Subexpr Model.Flatten Spec.IndexSpec Spec.FlattenSpec Proofs.IndexMain Proofs.SubexprLemmas Proofs.GLMMLemmas.
Import ListNotations.
Local Open Scope string_scope.
Notation length := List.length.

Lemma offset_place dims t : inside dims t = true -> within dims t /\ offset dims t = Ok (place dims t).
Proof.
  unfold inside. revert t. induction dims as [|n dims IH]; intros [|i t] H; try discriminate; [split; [constructor|reflexivity]|].
  apply andb_true_iff in H. destruct H as [L H]. cbn [combine forallb fst snd] in H. apply andb_true_iff in H. destruct H as [H1 H2].
  destruct (IH t) as [W O]; [apply andb_true_iff; split; [exact L|exact H2]|]. cbn [offset]. rewrite H1, O. cbn [bind place]. apply andb_true_iff in H1. destruct H1 as [A B]. apply Z.leb_le in A, B.
  split; [constructor; [lia|exact W]|reflexivity].
Qed.
Lemma all_map {A B} (f : A -> option B) l r : all (map f l) = Some r -> Forall2 (fun x y => f x = Some y) l r.
Proof.
  revert r. induction l as [|x l IH]; intros r H; cbn in H; [injection H as <-; constructor|].
  destruct (f x) eqn:E; [|discriminate]. destruct (all (map f l)) eqn:E2; [|discriminate]. injection H as <-. constructor; [exact E|now apply IH].
Qed.
Lemma map_all {A B} (f : A -> option B) l r : Forall2 (fun x y => f x = Some y) l r -> all (map f l) = Some r.
Proof. induction 1 as [|x y l r H _ IH]; cbn; [reflexivity|]. now rewrite H, IH. Qed.

Section Rows.
Variable E : Type.
Variable const : R -> E.
Variable to_int : E -> option Z.
Variable fn : string -> list E -> E.
Variable code : Z -> E.
Notation meaning := (meaning E const to_int fn code).
Notation evaluate := (evaluate E const to_int fn).
Notation d0 := (const 0%R).

Lemma evaluate_args (e : variables E) args : (fix go (l : list rexpr) : outcome (list (arr E)) :=
   match l with [] => Ok [] | y :: l' => v <- evaluate e y ;; r <- go l' ;; Ok (v :: r) end) args = mapM (evaluate e) args.
Proof. induction args as [|y args IH]; [reflexivity|]. cbn [mapM]. now rewrite <- IH. Qed.
Lemma evaluate_call (e : variables E) f args : evaluate e (Call (Name f :: args)) = (vs <- mapM (evaluate e) args ;;
  if String.eqb f "[" then match vs with u :: i :: is => subscript E to_int u (i :: is) | _ => Throw RuntimeError end
  else if String.eqb f "cbind" then cbind E vs else elementwise E fn f vs).
Proof. cbn [Flatten.evaluate]. now rewrite evaluate_args. Qed.
Lemma meaning_args V t args : (fix go (l : list rexpr) := match l with [] => [] | z :: l' => meaning V t z :: go l' end) args = map (meaning V t) args.
Proof. induction args as [|y args IH]; [reflexivity|]. cbn [map]. now rewrite <- IH. Qed.
Lemma indexing_args args : (fix go (l : list rexpr) := match l with [] => [] | y :: l' => matrix_indexing y :: go l' end) args = map matrix_indexing args.
Proof. induction args as [|y args IH]; [reflexivity|]. cbn [map]. now rewrite <- IH. Qed.
Lemma forall_args (p : rexpr -> bool) args : (fix go (l : list rexpr) := match l with [] => true | y :: l' => p y && go l' end) args = forallb p args.
Proof. induction args as [|y args IH]; [reflexivity|]. cbn [forallb]. now rewrite <- IH. Qed.

Lemma no_multiple_same x : no_multiple x = true -> matrix_indexing x = x.
Proof.
  induction x as [c|s|xs IH] using rexpr_ind'; intros H; [reflexivity|reflexivity|]. cbn [no_multiple] in H. rewrite forall_args in H. apply andb_true_iff in H. destruct H as [H1 H2].
  cbn [matrix_indexing]. rewrite indexing_args.
  assert (M : map matrix_indexing xs = xs).
  { clear H2. induction IH as [|y xs Hy _ IHx]; [reflexivity|]. cbn [forallb] in H1. apply andb_true_iff in H1. destruct H1 as [A B]. cbn [map]. now rewrite Hy, IHx. }
  rewrite M. destruct xs as [|[c|f|ys] [|y is]]; try reflexivity. destruct is as [|i [|j is]]; cbn [length Nat.ltb Nat.leb]; rewrite ?andb_false_r; try reflexivity.
  apply negb_true_iff in H2. now rewrite H2.
Qed.
Lemma no_multiple_nested x : no_multiple x = true -> not_nested x = true.
Proof.
  induction x as [c|s|xs IH] using rexpr_ind'; intros H; [reflexivity|reflexivity|]. cbn [no_multiple] in H. rewrite forall_args in H. apply andb_true_iff in H. destruct H as [H1 H2].
  assert (M : forallb not_nested xs = true).
  { clear H2. induction IH as [|y xs Hy _ IHx]; [reflexivity|]. cbn [forallb] in *. apply andb_true_iff in H1. destruct H1 as [A B]. now rewrite Hy, IHx. }
  cbn [not_nested]. rewrite forall_args. destruct xs as [|[c|f|ys] [|y is]]; try exact M. destruct is as [|i [|j is]]; cbn [length Nat.ltb Nat.leb]; rewrite ?andb_false_r; try exact M.
  apply negb_true_iff in H2. rewrite H2. exact M.
Qed.

Variable L : list Z.
Hypothesis Pos : List.Forall (fun n => (1 <= n)%Z) L.
Variable V : string -> option (var E).
Variable e : variables E.
Hypothesis H : holds E code L V e.
Notation N := (length (grid L)).
Lemma rows_pos : (1 <= N)%nat.
Proof. pose proof (grid_length L Pos). pose proof (product_pos L Pos). lia. Qed.

(** The vector v has the values of x in each row. *)
Definition rows (v : list E) (x : rexpr) : Prop :=
  (length v = N \/ length v = 1%nat) /\ forall r, (r < N)%nat -> meaning V (nth r (grid L) []) x = Some (nth (r mod length v) v d0).
Definition defined (x : rexpr) : Prop := forall t, In t (grid L) -> meaning V t x <> None.

Lemma longest_lengths (vs : list (list E)) : vs <> [] -> (forall v, In v vs -> length v = N \/ length v = 1%nat) ->
  longest E vs = N \/ longest E vs = 1%nat /\ forall v, In v vs -> length v = 1%nat.
Proof.
  pose proof rows_pos as NP. induction vs as [|v vs IH]; intros Ne A; [congruence|]. unfold longest. cbn [map fold_right]. fold (longest E vs).
  destruct vs as [|w vs].
  - unfold longest. cbn [map fold_right]. rewrite Nat.max_0_r. destruct (A v (or_introl eq_refl)) as [Q|Q]; [now left|right]. split; [exact Q|]. intros u [<-|[]]. exact Q.
  - destruct IH as [Q|[Q F]]; [discriminate|intros u Hu; apply A; now right| |]; rewrite Q; destruct (A v (or_introl eq_refl)) as [Q2|Q2]; rewrite Q2.
    + left. lia.
    + left. lia.
    + left. lia.
    + right. split; [reflexivity|]. intros u [<-|U]; auto.
Qed.
Lemma longest_rows vs args : Forall2 rows vs args -> vs <> [] ->
  (longest E vs = N \/ longest E vs = 1%nat) /\ forall v, In v vs -> (0 < length v)%nat /\
  forall r, (r < N)%nat -> ((r mod longest E vs) mod length v)%nat = (r mod length v)%nat.
Proof.
  intros F Ne. pose proof rows_pos as NP.
  assert (A : forall v, In v vs -> length v = N \/ length v = 1%nat) by (clear Ne; induction F as [|v x vs args [B _] _ IH]; intros w W; [destruct W|destruct W as [<-|W]; auto]).
  destruct (longest_lengths vs Ne A) as [Q|[Q F1]]; rewrite Q.
  - split; [now left|]. intros v Hv. split; [destruct (A v Hv); lia|]. intros r Hr. now rewrite (Nat.mod_small r N).
  - split; [now right|]. intros v Hv. rewrite (F1 v Hv). split; [lia|]. intros r _. now rewrite !Nat.mod_1_r.
Qed.
Lemma recycled_Ok (l : list E) k : (0 < length l)%nat -> recycled_at E l k = Ok (nth (k mod length l) l d0).
Proof. intros P. unfold recycled_at. rewrite (nth_error_nth' l d0) by (apply Nat.mod_upper_bound; lia). reflexivity. Qed.

(** The values of arguments in a row. *)
Lemma args_meaning vs args r : Forall2 rows vs args -> (r < N)%nat ->
  all (map (meaning V (nth r (grid L) [])) args) = Some (map (fun v => nth (r mod length v) v d0) vs).
Proof.
  intros F R. apply map_all. induction F as [|v x vs args [_ B] _ IH]; cbn [map]; constructor; auto.
Qed.
(** A vector of which each element is the value in some row. *)
Lemma make_rows n (g : nat -> E) x : (n = N \/ n = 1%nat) -> (forall r, (r < N)%nat -> meaning V (nth r (grid L) []) x = Some (g (r mod n)%nat)) ->
  rows (map g (seq 0 n)) x.
Proof.
  intros C G. pose proof rows_pos as NP. unfold rows. rewrite map_length, seq_length. split; [exact C|]. intros r R. rewrite G by exact R. f_equal.
  symmetry. apply GLMMLemmas.nth_map_seq. apply Nat.mod_upper_bound. lia.
Qed.
Lemma row_of n k : (n = N \/ n = 1%nat) -> (k < n)%nat -> exists r, (r < N)%nat /\ (r mod n = k)%nat.
Proof. pose proof rows_pos as NP. intros [->| ->] K; [exists k; split; [exact K|now apply Nat.mod_small]|exists 0%nat; split; [lia|cbn; lia]]. Qed.
Lemma nth_grid r : (r < N)%nat -> In (nth r (grid L) []) (grid L).
Proof. intros R. now apply nth_In. Qed.

Lemma elementwise_rows f y ys v vs : String.eqb f "[" = false -> String.eqb f "cbind" = false -> rows v y -> Forall2 rows vs ys ->
  exists w, elementwise E fn f (map (vector E) (v :: vs)) = Ok (vector E w) /\ rows w (Call (Name f :: y :: ys)).
Proof.
  intros N1 N2 Rv F. assert (F' : Forall2 rows (v :: vs) (y :: ys)) by now constructor. destruct (longest_rows _ _ F' ltac:(discriminate)) as [C M].
  unfold elementwise. assert (A : map (a_elems E) (map (vector E) (v :: vs)) = v :: vs) by (rewrite map_map; apply map_id). rewrite A.
  set (g := fun k => fn f (map (fun l => nth (k mod length l) l d0) (v :: vs))). set (n := longest E (v :: vs)) in *.
  rewrite (mapM_all _ g).
  2: { intros k K. rewrite (mapM_all _ (fun l => nth (k mod length l) l d0)); [reflexivity|]. intros l Hl. apply recycled_Ok. now apply M. }
  cbn [bind]. eexists. split; [reflexivity|]. apply make_rows; [exact C|]. intros r R. cbn [FlattenSpec.meaning]. rewrite meaning_args, N1, N2.
  rewrite (args_meaning vs ys r F R). rewrite (proj2 Rv r R). f_equal. unfold g. cbn [map]. rewrite (proj2 (M v (or_introl eq_refl)) r R). f_equal. f_equal.
  apply map_ext_in. intros l Hl. now rewrite (proj2 (M l (or_intror Hl)) r R).
Qed.

(** Subscripts. *)
Lemma element_at dims f t : inside dims t = true -> Flatten.place E (map f (grid dims)) (IndexMain.place dims t + 1) = Ok (f t).
Proof.
  intros I. destruct (offset_place dims t I) as [W _]. pose proof (place_range dims t W) as B. pose proof (grid_length dims (within_pos _ _ W)) as G.
  unfold Flatten.place. destruct (Z.ltb_spec (IndexMain.place dims t + 1) 1); [lia|]. rewrite Z.add_simpl_r.
  assert (Lt : (Z.to_nat (IndexMain.place dims t) < length (grid dims))%nat) by lia.
  rewrite (map_nth_error f (Z.to_nat (IndexMain.place dims t)) (grid dims) (d := t)); [reflexivity|]. rewrite (nth_error_nth' (grid dims) [] Lt). f_equal. now apply grid_place.
Qed.
Definition zint (x : E) : Z := match to_int x with Some z => z | None => 0%Z end.
Lemma all_zint es zs : all (map to_int es) = Some zs -> zs = map zint es /\ forall x, In x es -> to_int x = Some (zint x).
Proof.
  intros A. apply all_map in A. induction A as [|x z es zs Q _ [IH1 IH2]]; [split; [reflexivity|intros x []]|]. cbn [map]. unfold zint at 1. rewrite Q. split; [now rewrite IH1|].
  intros w [<-|W]; [unfold zint; now rewrite Q|auto].
Qed.
Lemma ints_Ok l : (forall x, In x l -> to_int x = Some (zint x)) -> ints E to_int l = Ok (map zint l).
Proof. intros Q. unfold ints. apply mapM_all. intros x Hx. now rewrite Q. Qed.

Lemma subscripts_defined y is vs : defined (Call (Name "[" :: y :: is)) -> Forall2 rows vs is ->
  exists a dims f, y = Name a /\ V a = Some (Array dims f) /\ forall r, (r < N)%nat ->
    let es := map (fun v => nth (r mod length v) v d0) vs in
    (forall x, In x es -> to_int x = Some (zint x)) /\ inside dims (map zint es) = true /\
    meaning V (nth r (grid L) []) (Call (Name "[" :: y :: is)) = Some (f (map zint es)).
Proof.
  intros D F. pose proof rows_pos as NP.
  assert (Q : forall r, (r < N)%nat -> exists a dims f, y = Name a /\ V a = Some (Array dims f) /\
    let es := map (fun v => nth (r mod length v) v d0) vs in
    (forall x, In x es -> to_int x = Some (zint x)) /\ inside dims (map zint es) = true /\
    meaning V (nth r (grid L) []) (Call (Name "[" :: y :: is)) = Some (f (map zint es))).
  { intros r R. pose proof (D _ (nth_grid r R)) as M. cbn [FlattenSpec.meaning] in M |- *. rewrite meaning_args in M |- *. rewrite (args_meaning vs is r F R) in M |- *. cbn [String.eqb Ascii.eqb Bool.eqb] in M |- *.
    destruct y as [c|a|ys]; try congruence. destruct (V a) as [[k|dims f|f]|] eqn:Va; try congruence.
    set (es := map (fun v => nth (r mod length v) v d0) vs) in *. destruct (all (map to_int es)) as [zs|] eqn:A; [|congruence]. destruct (all_zint es zs A) as [-> Z].
    exists a, dims, f. split; [reflexivity|]. split; [exact Va|]. cbv zeta. destruct (inside dims (map zint es)); [|congruence]. auto. }
  destruct (Q 0%nat NP) as (a & dims & f & Y & Va & _). exists a, dims, f. split; [exact Y|]. split; [exact Va|]. intros r R. destruct (Q r R) as (a' & dims' & f' & Y' & Va' & C).
  rewrite Y in Y'. injection Y' as <-. rewrite Va in Va'. injection Va' as <- <-. exact C.
Qed.

Lemma single_rows y i v : defined (Call [Name "["; y; i]) -> rows v i ->
  exists w, (u <- evaluate e (matrix_indexing y) ;; subscript E to_int u [vector E v]) = Ok (vector E w) /\ rows w (Call [Name "["; y; i]).
Proof.
  intros D R0. destruct (subscripts_defined y [i] [v] D ltac:(constructor; [exact R0|constructor])) as (a & dims & f & -> & Va & Q). pose proof rows_pos as NP.
  destruct (ho_array _ _ _ _ _ H a dims f Va) as (_ & d & Fa & Hd). cbn [matrix_indexing Flatten.evaluate]. rewrite Fa. cbn [bind subscript is_matrix vector a_dims a_elems].
  assert (C : length v = N \/ length v = 1%nat) by apply R0.
  assert (T : forall k, (k < length v)%nat -> to_int (nth k v d0) = Some (zint (nth k v d0)) /\ inside dims [zint (nth k v d0)] = true).
  { intros k K. destruct (row_of _ k C K) as (r & Rr & Rk). destruct (Q r Rr) as (Q1 & Q2 & _). cbn [map] in Q1, Q2. rewrite Rk in Q1, Q2. split; [apply Q1; now left|exact Q2]. }
  rewrite ints_Ok by (intros x Hx; destruct (In_nth v x d0 Hx) as (k & K & <-); now apply T). cbn [bind].
  rewrite (mapM_all _ (fun z => f [z])).
  2: { intros z Hz. apply in_map_iff in Hz. destruct Hz as (x & <- & Hx). destruct (In_nth v x d0 Hx) as (k & K & <-). destruct (T k K) as [_ I].
       pose proof (element_at dims f _ I) as El. destruct dims as [|n [|n2 dims]]; try discriminate I.
       cbn [IndexMain.place] in El. replace (zint (nth k v d0) - 1 + n * 0 + 1)%Z with (zint (nth k v d0)) in El by lia. exact El. }
  cbn [bind]. exists (map (fun z => f [z]) (map zint v)). split; [reflexivity|]. unfold rows. assert (ML : length (map (fun z => f [z]) (map zint v)) = length v) by now rewrite !map_length. rewrite ML. split; [exact C|]. intros r R. destruct (Q r R) as (_ & _ & ->). cbn [map]. f_equal.
  rewrite map_map. rewrite (nth_indep (map _ v) d0 (f [zint d0])) by (rewrite map_length; apply Nat.mod_upper_bound; lia). now rewrite (map_nth (fun x => f [zint x])).
Qed.

Lemma not_matrices vs : matrix_rows E (map (vector E) vs) = None /\ (forall n, same_rows E n (map (vector E) vs) = true) /\ concat (map (columns_of E) (map (vector E) vs)) = vs.
Proof. induction vs as [|v vs [I1 [I2 I3]]]; [repeat split|]. cbn [map matrix_rows is_matrix vector a_dims]. split; [exact I1|]. split; [intros n; apply I2|]. cbn [concat columns_of is_matrix vector a_dims a_elems app]. now rewrite I3. Qed.

Lemma multiple_rows y i is v vs : is <> [] -> defined (Call (Name "[" :: y :: i :: is)) -> rows v i -> Forall2 rows vs is ->
  exists w, (u <- evaluate e y ;; c <- cbind E (map (vector E) (v :: vs)) ;; subscript E to_int u [c]) = Ok (vector E w) /\ rows w (Call (Name "[" :: y :: i :: is)).
Proof.
  intros Ne D R0 F0. assert (F : Forall2 rows (v :: vs) (i :: is)) by now constructor. destruct (subscripts_defined y (i :: is) (v :: vs) D F) as (a & dims & f & -> & Va & Q). pose proof rows_pos as NP.
  destruct (longest_rows _ _ F ltac:(discriminate)) as [C M].
  destruct (ho_array _ _ _ _ _ H a dims f Va) as (_ & d & Fa & Hd). cbn [Flatten.evaluate]. rewrite Fa. cbn [bind].
  destruct (not_matrices (v :: vs)) as (M1 & M2 & M3). unfold cbind. rewrite M1, M2, M3.
  assert (A : map (a_elems E) (map (vector E) (v :: vs)) = v :: vs) by (rewrite map_map; apply map_id). rewrite A. set (n := longest E (v :: vs)) in *. set (k := length (v :: vs)).
  set (col := fun l : list E => map (fun j => nth (j mod length l) l d0) (seq 0 n)).
  rewrite (mapM_all _ col) by (intros l Hl; apply mapM_all; intros j _; apply recycled_Ok; now apply M). cbn [bind].
  (* the entries *)
  assert (Dm : length dims = k).
  { destruct (Q 0%nat NP) as (_ & I & _). unfold inside in I. apply andb_true_iff in I. destruct I as [I _]. apply Nat.eqb_eq in I. rewrite I. unfold k. now rewrite !map_length. }
  assert (K2 : (2 <= k)%nat) by (assert (FL : length (v :: vs) = length (i :: is)) by (clear -F; induction F; cbn; congruence); unfold k; destruct is; [congruence|cbn in FL |- *; lia]).
  assert (Ed : d = dims) by (destruct Hd as [->|[_ X]]; [reflexivity|lia]).
  assert (Ent : forall j l, (j < n)%nat -> In l (v :: vs) -> to_int (nth (j mod length l) l d0) = Some (zint (nth (j mod length l) l d0))).
  { intros j l J Hl. destruct (row_of n j C J) as (r & Rr & Rj). destruct (Q r Rr) as (Q1 & _). rewrite <- Rj, (proj2 (M l Hl) r Rr). apply Q1. apply in_map_iff. exists l. auto. }
  cbn [subscript a_elems]. rewrite ints_Ok.
  2: { intros x Hx. apply in_concat in Hx. destruct Hx as (c & Hc & Hx). apply in_map_iff in Hc. destruct Hc as (l & <- & Hl). unfold col in Hx. apply in_map_iff in Hx. destruct Hx as (j & <- & Hj).
       apply in_seq in Hj. apply Ent; [lia|exact Hl]. }
  cbn [bind is_matrix a_dims]. rewrite !Nat2Z.id. fold k. rewrite Ed, Dm, Nat.eqb_refl.
  set (g := fun j => f (map (fun l => zint (nth (j mod length l) l d0)) (v :: vs))).
  rewrite (mapM_all _ g).
  2: { intros j Hj. apply in_seq in Hj.
       assert (T : map (fun c => nth (j + c * n) (map zint (concat (map col (v :: vs)))) 0%Z) (seq 0 k) = map (fun l => zint (nth (j mod length l) l d0)) (v :: vs)).
       { unfold k. apply (nth_ext _ _ 0%Z 0%Z); [now rewrite !map_length, seq_length|]. intros c Hc. rewrite map_length, seq_length in Hc. rewrite GLMMLemmas.nth_map_seq by exact Hc.
         rewrite (nth_indep _ 0%Z (zint d0)).
         2: { rewrite map_length, (concat_uniform_length _ n); [rewrite map_length; nia|]. intros x Hx. apply in_map_iff in Hx. destruct Hx as (l & <- & _). unfold col. now rewrite map_length, seq_length. }
         rewrite map_nth. rewrite Nat.mul_comm. rewrite concat_uniform; [|intros x Hx; apply in_map_iff in Hx; destruct Hx as (l & <- & _); unfold col; now rewrite map_length, seq_length|lia|now rewrite map_length].
         rewrite (nth_indep _ [] (col [])) by now rewrite map_length. rewrite map_nth. rewrite (nth_indep _ 0%Z (zint (nth (j mod length (@nil E)) [] d0))) by now rewrite map_length.
         rewrite (map_nth (fun l => zint (nth (j mod length l) l d0))). f_equal. unfold col. rewrite GLMMLemmas.nth_map_seq by lia. reflexivity. }
       rewrite T. destruct (row_of n j C ltac:(lia)) as (r & Rr & Rj). destruct (Q r Rr) as (_ & I & _). rewrite map_map in I.
       assert (T2 : map (fun x => zint (nth (r mod length x) x d0)) (v :: vs) = map (fun l => zint (nth (j mod length l) l d0)) (v :: vs)).
       { apply map_ext_in. intros l Hl. now rewrite <- Rj, (proj2 (M l Hl) r Rr). }
       rewrite T2 in I. unfold element. cbn [a_dims a_elems]. rewrite (proj2 (offset_place _ _ I)). cbn [bind]. rewrite element_at by exact I. reflexivity. }
  cbn [bind]. eexists. split; [reflexivity|]. apply make_rows; [exact C|]. intros r R. destruct (Q r R) as (_ & _ & ->). unfold g. rewrite map_map. f_equal. f_equal.
  apply map_ext_in. intros l Hl. now rewrite (proj2 (M l Hl) r R).
Qed.

Lemma evaluate_rows x : not_nested x = true -> defined x -> exists v, evaluate e (matrix_indexing x) = Ok (vector E v) /\ rows v x.
Proof.
  pose proof rows_pos as NP.
  induction x as [c|s|xs IH] using rexpr_ind'; intros NN D.
  - exists [const c]. split; [reflexivity|]. split; [now right|]. intros r R. cbn [length]. now rewrite Nat.mod_1_r.
  - pose proof (D _ (nth_grid 0 NP)) as M. cbn [FlattenSpec.meaning] in M. cbn [matrix_indexing Flatten.evaluate].
    destruct (V s) as [[k|dims f|f]|] eqn:Vs; try congruence.
    + exists (map (fun t => code (nth k t 0%Z)) (grid L)). split; [exact (ho_index _ _ _ _ _ H s k Vs)|]. unfold rows. rewrite map_length. split; [now left|]. intros r R. cbn [FlattenSpec.meaning]. rewrite Vs.
      rewrite Nat.mod_small by exact R. f_equal. rewrite (nth_indep _ d0 (code (nth k [] 0%Z))) by now rewrite map_length. now rewrite (map_nth (fun t => code (nth k t 0%Z))).
    + exists (map f (grid L)). split; [exact (ho_along _ _ _ _ _ H s f Vs)|]. unfold rows. rewrite map_length. split; [now left|]. intros r R. cbn [FlattenSpec.meaning]. rewrite Vs.
      rewrite Nat.mod_small by exact R. f_equal. rewrite (nth_indep _ d0 (f [])) by now rewrite map_length. now rewrite map_nth.
  - assert (Args : forall ys, List.Forall (fun x => not_nested x = true -> defined x -> exists v, evaluate e (matrix_indexing x) = Ok (vector E v) /\ rows v x) ys ->
      forallb not_nested ys = true -> (forall y, In y ys -> defined y) -> exists vs, mapM (evaluate e) (map matrix_indexing ys) = Ok (map (vector E) vs) /\ Forall2 rows vs ys).
    { clear. intros ys FA. induction FA as [|y ys Hy _ IHy]; intros B Dy; [exists []; split; [reflexivity|constructor]|]. cbn [forallb] in B. apply andb_true_iff in B. destruct B as [B1 B2].
      destruct (Hy B1 (Dy y (or_introl eq_refl))) as (v & Ev & Rv). destruct (IHy B2 (fun z Hz => Dy z (or_intror Hz))) as (vs & Evs & Rvs).
      exists (v :: vs). cbn [map mapM]. rewrite Ev. cbn [bind]. rewrite Evs. cbn [bind]. split; [reflexivity|now constructor]. }
    destruct xs as [|[c|f|zs] xs]; try (exfalso; exact (D _ (nth_grid 0 NP) eq_refl)). destruct xs as [|y ys]; [exfalso; exact (D _ (nth_grid 0 NP) eq_refl)|].
    inversion IH as [|? ? _ IH1]; subst. inversion IH1 as [|? ? IHy IHys]; subst. clear IH IH1.
    assert (Dys : forall z, In z ys -> defined z).
    { intros z Hz t Ht Mz. apply (D t Ht). cbn [FlattenSpec.meaning]. rewrite meaning_args.
      assert (A : all (map (meaning V t) ys) = None) by (clear -Hz Mz; induction ys as [|w ys IHw]; [destruct Hz|]; cbn [map all]; destruct Hz as [<-|Hz]; [now rewrite Mz|destruct (meaning V t w); [|reflexivity]; now rewrite (IHw Hz)]).
      rewrite A. destruct (String.eqb f "["); [destruct y as [|a|]; try reflexivity; destruct (V a) as [[]|]; reflexivity|]. destruct (String.eqb f "cbind"); [reflexivity|]. now destruct (meaning V t y). }
    destruct (String.eqb f "[") eqn:Ef.
    + apply String.eqb_eq in Ef. subst f. destruct ys as [|i is].
      * exfalso. pose proof (D _ (nth_grid 0 NP)) as M. destruct (subscripts_defined y [] [] D ltac:(constructor)) as (a & dims & f & -> & Va & Q).
        destruct (Q 0%nat NP) as (_ & I & _). destruct (ho_array _ _ _ _ _ H a dims f Va) as (Nd & _). destruct dims; [congruence|discriminate I].
      * destruct is as [|i2 is].
        -- assert (NN' : forallb not_nested [y; i] = true) by (cbn [not_nested length Nat.ltb Nat.leb andb String.eqb Ascii.eqb Bool.eqb] in NN; cbn [forallb]; exact NN).
           cbn [forallb] in NN'. apply andb_true_iff in NN'. destruct NN' as [N1 N2]. rewrite andb_true_r in N2.
           inversion IHys as [|? ? IHi _]; subst. destruct (IHi N2 (Dys i (or_introl eq_refl))) as (v & Ev & Rv).
           destruct (single_rows y i v D Rv) as (w & Ew & Rw). exists w. split; [|exact Rw]. cbn [matrix_indexing length Nat.ltb Nat.leb andb String.eqb Ascii.eqb Bool.eqb]. rewrite evaluate_call. cbn [mapM].
           destruct (evaluate e (matrix_indexing y)) as [u| | |] eqn:Eu; try discriminate Ew. cbn [bind]. rewrite Ev. cbn [bind]. exact Ew.
        -- cbn [not_nested length Nat.ltb Nat.leb andb String.eqb Ascii.eqb Bool.eqb] in NN.
           assert (Same : map matrix_indexing (i :: i2 :: is) = i :: i2 :: is) by (clear -NN; revert NN; generalize (i :: i2 :: is) as l; induction l as [|z l IHl]; intros B; [reflexivity|]; cbn [forallb] in B; apply andb_true_iff in B; destruct B; cbn [map]; rewrite no_multiple_same by assumption; now rewrite IHl).
           destruct (Args (i :: i2 :: is) IHys) as (vs & Evs & Rvs).
           { clear -NN. revert NN. generalize (i :: i2 :: is) as l. induction l as [|z l IHl]; intros B; [reflexivity|]. cbn [forallb] in *. apply andb_true_iff in B. destruct B. rewrite no_multiple_nested by assumption. now apply IHl. }
           { exact Dys. }
           rewrite Same in Evs. inversion Rvs as [|v x vs' l Rv Rvs' Q1 Q2]; subst. destruct (multiple_rows y i (i2 :: is) v vs' ltac:(discriminate) D Rv Rvs') as (w & Ew & Rw).
           exists w. split; [|exact Rw]. cbn [matrix_indexing length Nat.ltb Nat.leb andb String.eqb Ascii.eqb Bool.eqb]. rewrite evaluate_call. cbn [mapM].
           destruct (evaluate e y) as [u| | |] eqn:Eu; try discriminate Ew. cbn [bind] in Ew |- *. rewrite evaluate_call, Evs. cbn [bind String.eqb Ascii.eqb Bool.eqb]. cbn [map] in Ew |- *.
           destruct (cbind E _) as [cc| | |] eqn:Eb; try discriminate Ew. cbn [bind] in *. exact Ew.
    + destruct (String.eqb f "cbind") eqn:Ec; [exfalso; apply (D _ (nth_grid 0 NP)); cbn [FlattenSpec.meaning]; now rewrite Ef, Ec|].
      assert (Dy : defined y). { intros t Ht My. apply (D t Ht). cbn [FlattenSpec.meaning]. now rewrite Ef, Ec, My. }
      assert (NN' : forallb not_nested (y :: ys) = true) by (cbn [not_nested] in NN; rewrite Ef in NN; cbn [andb] in NN; rewrite forall_args in NN; exact NN).
      destruct (Args (y :: ys) ltac:(now constructor) NN') as (vs & Evs & Rvs); [intros z [<-|Hz]; auto|].
      inversion Rvs as [|v x vs' l Rv Rvs' Q1 Q2]; subst. destruct (elementwise_rows f y ys v vs' Ef Ec Rv Rvs') as (w & Ew & Rw). exists w. split; [|exact Rw].
      cbn [matrix_indexing]. rewrite Ef. cbn [andb]. rewrite indexing_args. rewrite evaluate_call.
      change (matrix_indexing y :: map matrix_indexing ys) with (map matrix_indexing (y :: ys)). rewrite Evs. cbn [bind]. rewrite Ef, Ec. exact Ew.
Qed.
End Rows.

Lemma outer_grid l : outer (map (fun n => map Z.of_nat (seq 1 (Z.to_nat n))) l) = grid l.
Proof. induction l as [|n l IH]; [reflexivity|]. cbn [map outer grid]. rewrite IH. reflexivity. Qed.

Lemma drop_index_name s lhs : drop_index lhs = Name s <-> subscripted s lhs.
Proof.
  induction lhs as [c|t|xs IH] using rexpr_ind'; [split; [discriminate|inversion 1]|cbn; split; [intros [= ->]; constructor|now inversion 1]|].
  destruct xs as [|[c|f|zs] xs]; try (split; [discriminate|now inversion 1]).
  cbn [drop_index]. destruct (String.eqb f "[") eqn:Ef.
  - apply String.eqb_eq in Ef. subst f. destruct xs as [|y is]; [split; [discriminate|now inversion 1]|]. inversion IH as [|? ? _ IH1]; subst. inversion IH1 as [|? ? IHy _]; subst.
    rewrite IHy. split; [now constructor|now inversion 1].
  - split; [discriminate|]. inversion 1; subst. discriminate Ef.
Qed.
Lemma C72_lhs_main lhs rhs : (forall s, find_subvar (Call [Name "~"; lhs; rhs]) = Ok s <-> subscripted s lhs) /\
  ((forall s, ~ subscripted s lhs) -> find_subvar (Call [Name "~"; lhs; rhs]) = Throw RuntimeError).
Proof.
  cbn [find_subvar]. split.
  - intros s. rewrite <- drop_index_name. destruct (drop_index lhs); split; congruence.
  - intros A. destruct (drop_index lhs) as [c|s|xs] eqn:Q; try reflexivity. exfalso. apply (A s). now apply drop_index_name.
Qed.

Lemma find_app {A} (p : A -> bool) l1 l2 : find p (l1 ++ l2) = match find p l1 with Some x => Some x | None => find p l2 end.
Proof. induction l1 as [|x l1 IH]; [reflexivity|]. cbn. now destruct (p x). Qed.
Lemma find_named {E} (names : list string) (g : nat -> arr E) s : forall j,
  (~ In s names -> find (fun nv => String.eqb (fst nv) s) (map (fun k => (nth (k - j) names "", g k)) (seq j (length names))) = None) /\
  (NoDup names -> forall k, nth_error names k = Some s -> find (fun nv => String.eqb (fst nv) s) (map (fun k => (nth (k - j) names "", g k)) (seq j (length names))) = Some (s, g (j + k)%nat)).
Proof.
  induction names as [|n names IH]; intros j; [split; [reflexivity|intros _ [|k]; discriminate]|]. cbn [length seq map find fst]. rewrite Nat.sub_diag.
  assert (Sh : map (fun k => (nth (k - j) (n :: names) "", g k)) (seq (S j) (length names)) = map (fun k => (nth (k - S j) names "", g k)) (seq (S j) (length names))).
  { apply map_ext_in. intros k K. apply in_seq in K. replace (k - j)%nat with (S (k - S j)) by lia. reflexivity. }
  rewrite Sh. cbn [nth]. destruct (IH (S j)) as [I1 I2]. split.
  - intros Ni. destruct (String.eqb_spec n s) as [->|Q]; [exfalso; apply Ni; now left|]. apply I1. intros Hi. apply Ni. now right.
  - intros ND [|k] Hk; cbn in Hk.
    + injection Hk as ->. rewrite String.eqb_refl, Nat.add_0_r. reflexivity.
    + inversion ND; subst. destruct (String.eqb_spec n s) as [->|Q]; [exfalso; apply H1; now apply nth_error_In in Hk|]. rewrite (I2 H2 k Hk). f_equal. f_equal. f_equal. lia.
Qed.

Lemma data_holds E code zero indices subvar data V : described E indices subvar data V -> holds E code (map snd indices) V (data_subform E code zero indices subvar data).
Proof.
  intros D. set (L := map snd indices).
  assert (G : forall s, fetch E (data_subform E code zero indices subvar data) s = match find (fun nv => String.eqb (fst nv) s) (map (fun k => (nth (k - 0) (map fst indices) "", vector E (grid_column E code L k))) (seq 0 (length (map fst indices)))) with
     | Some nv => Ok (snd nv) | None => fetch E ((subvar, vector E (repeat zero (Z.to_nat (fold_right Z.mul 1%Z L)))) :: data) s end).
  { intros s. unfold fetch, data_subform. fold L. rewrite find_app. rewrite map_length.
    assert (Q : map (fun k => (nth k (map fst indices) "", vector E (grid_column E code L k))) (seq 0 (length indices)) = map (fun k => (nth (k - 0) (map fst indices) "", vector E (grid_column E code L k))) (seq 0 (length indices))) by (apply map_ext; intros k; now rewrite Nat.sub_0_r).
    rewrite Q. now destruct (find _ (map _ _)). }
  assert (O : forall s, ~ In s (map fst indices) -> s <> subvar -> fetch E (data_subform E code zero indices subvar data) s = fetch E data s).
  { intros s N1 N2. rewrite G, (proj1 (find_named (map fst indices) _ s 0) N1). unfold fetch. cbn [find fst]. destruct (String.eqb_spec subvar s); [congruence|reflexivity]. }
  constructor.
  - intros s k Vk. rewrite G, (proj2 (find_named (map fst indices) _ s 0) (de_names _ _ _ _ _ D) k (de_index _ _ _ _ _ D s k Vk)). cbn [snd Nat.add]. unfold grid_column. now rewrite outer_grid.
  - intros s dims f Va. destruct (de_array _ _ _ _ _ D s dims f Va) as (N1 & N2 & N3 & d & Fd & Hd). split; [exact N3|]. exists d. rewrite O by assumption. auto.
  - intros s f Va. destruct (de_along _ _ _ _ _ D s f Va) as (N1 & N2 & Fd). rewrite O by assumption. exact Fd.
Qed.

Theorem C72_rows_main E const to_int fn code zero indices subvar data V lhs rhs :
  described E indices subvar data V -> subscripted subvar lhs ->
  ((2 <= length indices)%nat -> not_nested rhs = true) -> ((length indices <= 1)%nat -> no_multiple rhs = true) ->
  (forall t, In t (grid (map snd indices)) -> meaning E const to_int fn code V t rhs <> None) ->
  exists rhs' v, flatten_formula (length indices) (Call [Name "~"; lhs; rhs]) = Ok (Call [Name "~"; Name subvar; rhs']) /\
  evaluate E const to_int fn (data_subform E code zero indices subvar data) rhs' = Ok (vector E v) /\
  (length v = length (grid (map snd indices)) \/ length v = 1%nat) /\
  forall r t, nth_error (grid (map snd indices)) r = Some t -> in_row v r = meaning E const to_int fn code V t rhs.
Proof.
  intros D S N1 N2 M. pose proof (data_holds E code zero indices subvar data V D) as H. pose proof (de_levels _ _ _ _ _ D) as P.
  assert (Fl : flatten_formula (length indices) (Call [Name "~"; lhs; rhs]) = Ok (Call [Name "~"; Name subvar; matrix_indexing rhs])).
  { unfold flatten_formula. rewrite (proj2 (proj1 (C72_lhs_main lhs rhs) subvar) S). cbn [bind]. destruct (Nat.ltb_spec 1 (length indices)) as [Q|Q]; [reflexivity|]. rewrite no_multiple_same by (apply N2; lia). reflexivity. }
  assert (NN : not_nested rhs = true) by (destruct (le_lt_dec 2 (length indices)) as [Q|Q]; [auto|apply no_multiple_nested; apply N2; lia]).
  destruct (evaluate_rows E const to_int fn code _ P V _ H rhs NN M) as (v & Ev & C & R). exists (matrix_indexing rhs), v. split; [exact Fl|]. split; [exact Ev|]. split; [exact C|].
  intros r t T. assert (Lt : (r < length (grid (map snd indices)))%nat) by (apply nth_error_Some; congruence).
  specialize (R r Lt). rewrite (nth_error_nth _ _ _ T) in R. rewrite R. unfold in_row. apply nth_error_nth'. apply Nat.mod_upper_bound. lia.
Qed.

(** * Cases *)
(** ability[p, m] ~ 0 + x[m] + y[p, m] + (1 | p) for two players and three matches. *)
Definition case_const (x : R) : list Z := [0%Z].
Definition case_int (x : list Z) : option Z := match x with [z] => Some z | _ => None end.
Definition case_fn (f : string) (args : list (list Z)) : list Z := List.concat args.
Definition case_code (z : Z) : list Z := [z].
Definition nm := Name.
Definition case_lhs : rexpr := Call [nm "["; nm "ability"; nm "p"; nm "m"].
Definition case_rhs : rexpr := Call [nm "+"; Call [nm "+"; Call [nm "["; nm "x"; nm "m"]; Call [nm "["; nm "y"; nm "p"; nm "m"]]; Call [nm "("; Call [nm "|"; Const 1; nm "p"]]].
Definition case_x (t : list Z) : list Z := [nth 0 t 0 + 10]%Z.
Definition case_y (t : list Z) : list Z := [10 * nth 0 t 0 + nth 1 t 0]%Z.
Definition case_data : variables (list Z) := [("x", mkArr _ [[11]; [12]; [13]]%Z []); ("y", mkArr _ [[11]; [21]; [12]; [22]; [13]; [23]]%Z [2; 3]%Z)].
Definition case_V (s : string) : option (var (list Z)) :=
  if String.eqb s "p" then Some (Index 0) else if String.eqb s "m" then Some (Index 1) else if String.eqb s "x" then Some (Array [3%Z] case_x) else if String.eqb s "y" then Some (Array [2; 3]%Z case_y) else None.
Definition case_indices : list (string * Z) := [("p", 2%Z); ("m", 3%Z)].

Lemma case_described : described (list Z) case_indices "ability" case_data case_V.
Proof.
  constructor.
  - repeat constructor; cbn; intuition congruence.
  - cbn. intuition congruence.
  - repeat constructor; cbn; lia.
  - intros s k. unfold case_V. repeat match goal with |- context [String.eqb s ?a] => destruct (String.eqb_spec s a); [subst|] end; intros Q; try discriminate Q; injection Q as <-; reflexivity.
  - intros s dims f. unfold case_V. repeat match goal with |- context [String.eqb s ?a] => destruct (String.eqb_spec s a); [subst|] end; intros Q; try discriminate Q; injection Q as <- <-; cbn.
    + split; [intuition congruence|]. split; [congruence|]. split; [congruence|]. exists []. split; [reflexivity|]. now right.
    + split; [intuition congruence|]. split; [congruence|]. split; [congruence|]. exists [2; 3]%Z. split; [reflexivity|]. now left.
  - intros s f. unfold case_V. repeat match goal with |- context [String.eqb s ?a] => destruct (String.eqb_spec s a); [subst|] end; intros Q; discriminate Q.
Qed.
Lemma case_meaning : subscripted "ability" case_lhs /\ not_nested case_rhs = true /\
  map (fun t => meaning (list Z) case_const case_int case_fn case_code case_V t case_rhs) (grid (map snd case_indices)) =
  [Some [11; 11; 0; 1]; Some [11; 21; 0; 2]; Some [12; 12; 0; 1]; Some [12; 22; 0; 2]; Some [13; 13; 0; 1]; Some [13; 23; 0; 2]]%Z.
Proof. split; [repeat constructor|]. split; reflexivity. Qed.

(** Subscripts within subscripts, and two subscripts with one index. *)
Definition nested : rexpr := Call [nm "["; nm "y"; Call [nm "["; nm "z"; nm "p"; nm "m"]; nm "m"].
Definition nested_z (t : list Z) : list Z := [3 - nth 0 t 0]%Z.
Definition nested_data : variables (list Z) := ("z", mkArr _ [[2]; [1]; [2]; [1]; [2]; [1]]%Z [2; 3]%Z) :: case_data.
Definition nested_V (s : string) : option (var (list Z)) := if String.eqb s "z" then Some (Array [2; 3]%Z nested_z) else case_V s.
Lemma nested_described : described (list Z) case_indices "ability" nested_data nested_V.
Proof.
  destruct case_described as [D1 D2 D3 D4 D5 D6]. constructor; auto.
  - intros s k. unfold nested_V. destruct (String.eqb s "z"); [discriminate|apply D4].
  - intros s dims f. unfold nested_V. destruct (String.eqb_spec s "z") as [->|Ns].
    + intros Q. injection Q as <- <-. cbn. split; [intuition congruence|]. split; [congruence|]. split; [congruence|]. exists [2; 3]%Z. split; [reflexivity|now left].
    + intros Q. destruct (D5 s dims f Q) as (A & B & C & d & Fd & Hd). repeat split; auto. exists d. split; [|exact Hd]. unfold fetch, nested_data. cbn [find fst].
      destruct (String.eqb_spec "z" s); [congruence|exact Fd].
  - intros s f. unfold nested_V. destruct (String.eqb s "z"); [discriminate|]. intros Q. exfalso. revert Q. unfold case_V. repeat match goal with |- context [String.eqb s ?a] => destruct (String.eqb_spec s a) end; discriminate.
Qed.
Lemma C72_nested_main :
  map (fun t => meaning (list Z) case_const case_int case_fn case_code nested_V t nested) (grid (map snd case_indices)) = [Some [21]; Some [11]; Some [22]; Some [12]; Some [23]; Some [13]]%Z /\
  exists rhs' v, flatten_formula 2 (Call [Name "~"; case_lhs; nested]) = Ok (Call [Name "~"; Name "ability"; rhs']) /\
  evaluate (list Z) case_const case_int case_fn (data_subform (list Z) case_code [0%Z] case_indices "ability" nested_data) rhs' = Ok (vector _ v) /\ length v = 42%nat.
Proof. split; [reflexivity|]. eexists; eexists. split; [reflexivity|]. split; [lazy; reflexivity|reflexivity]. Qed.

Definition single_indices : list (string * Z) := [("p", 2%Z)].
Definition single_lhs : rexpr := Call [nm "["; nm "ability"; nm "p"].
Definition twice : rexpr := Call [nm "["; nm "y"; nm "p"; nm "p"].
Lemma single_described : described (list Z) single_indices "ability" case_data (fun s => if String.eqb s "m" then None else case_V s).
Proof.
  destruct case_described as [D1 D2 D3 D4 D5 D6]. constructor.
  - repeat constructor. intros [].
  - cbn. intuition congruence.
  - repeat constructor; cbn; lia.
  - intros s k. unfold case_V. repeat match goal with |- context [String.eqb s ?a] => destruct (String.eqb_spec s a); [subst|] end; intros Q; try discriminate Q; injection Q as <-; reflexivity.
  - intros s dims f. destruct (String.eqb s "m"); [discriminate|]. intros Q. destruct (D5 s dims f Q) as (A & B & C). split; [|auto]. cbn in A |- *. intuition.
  - intros s f. destruct (String.eqb s "m"); [discriminate|]. intros Q. exfalso. revert Q. unfold case_V. repeat match goal with |- context [String.eqb s ?a] => destruct (String.eqb_spec s a) end; discriminate.
Qed.
Lemma C72_one_index_main :
  map (fun t => meaning (list Z) case_const case_int case_fn case_code (fun s => if String.eqb s "m" then None else case_V s) t twice) (grid (map snd single_indices)) = [Some [11]; Some [22]]%Z /\
  exists v, flatten_formula 1 (Call [Name "~"; single_lhs; twice]) = Ok (Call [Name "~"; Name "ability"; twice]) /\
  evaluate (list Z) case_const case_int case_fn (data_subform (list Z) case_code [0%Z] single_indices "ability" case_data) twice = Ok v /\ a_elems _ v = [[11]; [21]; [12]; [22]]%Z.
Proof. split; [reflexivity|]. eexists. split; [reflexivity|]. split; [lazy; reflexivity|reflexivity]. Qed.
