(** Expressions with a substituted variable: the functions as recursions over lists. *)
From Coq Require Import String List Reals Bool Arith ZArith Lia.
From Verif Require Import Model.Base Model.Indexing Model.Subexpr Spec.IndexSpec Spec.SubexprSpec Proofs.IndexMain.
Import ListNotations.
Local Open Scope R_scope.

Lemma rexpr_ind' (P : rexpr -> Prop) : (forall x, P (Const x)) -> (forall s, P (Name s)) ->
  (forall xs, List.Forall P xs -> P (Call xs)) -> forall x, P x.
Proof.
  intros HC HN HX. fix IH 1. intros [x|s|xs]; [apply HC|apply HN|]. apply HX.
  induction xs as [|y xs IHx]; constructor; [apply IH|apply IHx].
Qed.

Lemma bind_Ok {A B} (m : outcome A) (f : A -> outcome B) r : bind m f = Ok r -> exists a, m = Ok a /\ f a = Ok r.
Proof. destruct m as [a|e| |]; cbn [bind]; intros H; try discriminate H. exists a. now split. Qed.

Lemma mapM_Forall2 {A B} (f : A -> outcome B) l r : mapM f l = Ok r <-> Forall2 (fun x y => f x = Ok y) l r.
Proof.
  revert r. induction l as [|x l IH]; intros r; cbn [mapM].
  - split; [intros [= <-]; constructor|intros H; inversion H; reflexivity].
  - split.
    + intros H. apply bind_Ok in H. destruct H as [y [Hy H]]. apply bind_Ok in H. destruct H as [ys [Hys H]].
      injection H as <-. constructor; [exact Hy|]. apply IH. exact Hys.
    + intros H. inversion H as [|? y ? ys Hy Hys]; subst. rewrite Hy. cbn [bind]. apply IH in Hys. now rewrite Hys.
Qed.

Lemma mapM_ext {A B} (f g : A -> outcome B) l : (forall x, In x l -> f x = g x) -> mapM f l = mapM g l.
Proof.
  induction l as [|x l IH]; intros H; cbn [mapM]; [reflexivity|]. rewrite (H x) by now left.
  rewrite IH; [reflexivity|]. intros y Hy. apply H. now right.
Qed.

Section M.
Variable subvar : string.

Lemma occurs_call s xs : occurs s (Call xs) = existsb (occurs s) xs.
Proof. cbn [occurs]. induction xs as [|y xs IH]; [reflexivity|]. cbn [existsb]. now rewrite <- IH. Qed.

Lemma occurs_in s xs y : In y xs -> occurs s (Call xs) = false -> occurs s y = false.
Proof.
  intros Hy H. rewrite occurs_call in H. destruct (occurs s y) eqn:E; [|reflexivity].
  assert (T : existsb (occurs s) xs = true) by (apply existsb_exists; exists y; now split). congruence.
Qed.

Lemma all_calls_call P xs : all_calls P (Call xs) <-> P xs /\ List.Forall (all_calls P) xs.
Proof.
  cbn [all_calls]. split; intros [H G]; (split; [exact H|]).
  - clear H. induction xs as [|y xs IH]; constructor; [apply G|apply IH; apply G].
  - clear H. induction G as [|y xs Hy G IH]; [exact I|]. now split.
Qed.

Lemma status_call xs : find_sub_status subvar (Call xs) = (bs <- mapM (find_sub_status subvar) xs ;; Ok (existsb (fun b => b) bs)).
Proof.
  cbn [find_sub_status]. induction xs as [|y xs IH]; cbn [mapM bind]; [reflexivity|].
  destruct (find_sub_status subvar y) as [b|e| |]; cbn [bind]; try reflexivity.
  rewrite IH. destruct (mapM (find_sub_status subvar) xs); cbn [bind]; reflexivity.
Qed.

Lemma status_occurs x b : find_sub_status subvar x = Ok b -> b = occurs subvar x.
Proof.
  revert b. induction x as [c|s|xs IH] using rexpr_ind'; intros b H.
  - discriminate H.
  - injection H as <-. reflexivity.
  - rewrite status_call in H. apply bind_Ok in H. destruct H as [bs [Hbs H]]. injection H as <-.
    rewrite occurs_call. apply mapM_Forall2 in Hbs. induction Hbs as [|y c xs bs Hy Hbs IHb]; [reflexivity|].
    inversion IH as [|? ? IHy IHxs]; subst. cbn [existsb]. rewrite (IHy c Hy). now rewrite (IHb IHxs).
Qed.

Lemma modify_call_eq xs : modify_subexpr subvar (Call xs) =
  (ys <- mapM (modify_subexpr subvar) xs ;; zs <- modify_call subvar xs ys ;; Ok (Call zs)).
Proof.
  cbn [modify_subexpr]. f_equal. induction xs as [|y xs IH]; cbn [mapM]; [reflexivity|].
  destruct (modify_subexpr subvar y); cbn [bind]; [|reflexivity|reflexivity|reflexivity]. now rewrite IH.
Qed.

Lemma extract_call xs : extract_to_flatten subvar (Call xs) =
  (inner <- (ls <- mapM (extract_to_flatten subvar) xs ;; Ok (concat ls)) ;;
   match xs with
   | h :: a :: rest =>
       if is_name h "[" && Nat.ltb 3 (length xs) then
         s <- find_sub_status subvar a ;;
         if s then to_flatten <- names_of rest ;; Ok (to_flatten :: inner) else Ok inner
       else Ok inner
   | _ => Ok inner
   end).
Proof.
  cbn [extract_to_flatten]. f_equal. induction xs as [|y xs IH]; cbn [mapM bind concat]; [reflexivity|].
  destruct (extract_to_flatten subvar y) as [a|e| |]; cbn [bind]; try reflexivity.
  rewrite IH. destruct (mapM (extract_to_flatten subvar) xs); cbn [bind]; reflexivity.
Qed.

Lemma eval_call o e f args : eval o e (Call (Name f :: args)) = (vs <- mapM (eval o e) args ;; apply o f vs).
Proof.
  cbn [eval]. f_equal. induction args as [|y args IH]; cbn [mapM]; [reflexivity|].
  destruct (eval o e y); cbn [bind]; [|reflexivity|reflexivity|reflexivity]. now rewrite IH.
Qed.

(** A variable that does not occur. *)
Lemma modify_same x x' : occurs subvar x = false -> modify_subexpr subvar x = Ok x' -> x' = x.
Proof.
  revert x'. induction x as [c|s|xs IH] using rexpr_ind'; intros x' HO H.
  - now injection H as <-.
  - now injection H as <-.
  - rewrite modify_call_eq in H. apply bind_Ok in H. destruct H as [ys [Hys H]].
    assert (E : ys = xs).
    { apply mapM_Forall2 in Hys. revert Hys IH. assert (G : forall y, In y xs -> occurs subvar y = false) by (intros y Hy; eapply occurs_in; eauto).
      clear H HO. intros Hys. induction Hys as [|y y' xs ys Hy Hys IHys]; intros IH; [reflexivity|].
      inversion IH as [|? ? IHy IHxs]; subst. f_equal; [apply IHy; [apply G; now left|exact Hy]|].
      apply IHys; [|exact IHxs]. intros z Hz. apply G. now right. }
    subst ys. apply bind_Ok in H. destruct H as [zs [Hzs H]]. injection H as <-. f_equal.
    unfold modify_call in Hzs. apply bind_Ok in Hzs. destruct Hzs as [b1 [H1 Hzs]]. apply bind_Ok in Hzs. destruct Hzs as [b2 [H2 Hzs]].
    assert (E1 : b1 = false).
    { destruct xs as [|h [|a r]]; [now injection H1|now injection H1|]. apply status_occurs in H1. rewrite H1.
      apply (occurs_in subvar (h :: a :: r)); [right; now left|exact HO]. }
    assert (E2 : b2 = false).
    { destruct xs as [|h [|a [|b r]]]; [now injection H2|now injection H2|now injection H2|]. apply status_occurs in H2. rewrite H2.
      apply (occurs_in subvar (h :: a :: b :: r)); [right; right; now left|exact HO]. }
    subst b1 b2. cbn [orb] in Hzs. now injection Hzs as <-.
Qed.
End M.

(** Evaluation depends on the names in the expression. *)
Lemma eval_names o e e' x : (forall s, occurs s x = true -> get e s = get e' s) -> eval o e x = eval o e' x.
Proof.
  induction x as [c|s|xs IH] using rexpr_ind'; intros H.
  - reflexivity.
  - cbn [eval]. apply H. cbn [occurs]. apply String.eqb_refl.
  - destruct xs as [|h args]; [reflexivity|]. destruct h as [c|f|hs]; try reflexivity.
    rewrite !eval_call. f_equal. apply mapM_ext. intros y Hy. inversion IH as [|? ? _ IHa]; subst.
    rewrite Forall_forall in IHa. apply (IHa y Hy). intros s Hs. apply H. rewrite occurs_call. apply existsb_exists.
    exists y. split; [now right|exact Hs].
Qed.

Lemma get_cons s v e t : get ((s, v) :: e) t = if String.eqb s t then Ok v else get e t.
Proof. unfold get. cbn [find fst]. destruct (String.eqb s t); reflexivity. Qed.

Lemma get_In e s v : get e s = Ok v -> In (s, v) e.
Proof.
  unfold get. destruct (find (fun nv => String.eqb (fst nv) s) e) as [[n w]|] eqn:E; [|discriminate].
  intros [= <-]. apply find_some in E. destruct E as [E F]. cbn [fst] in F. apply String.eqb_eq in F. now subst n.
Qed.

Lemma get_app e e' s : get (e ++ e') s = match find (fun nv => String.eqb (fst nv) s) e with Some nv => Ok (snd nv) | None => get e' s end.
Proof.
  unfold get. induction e as [|[n w] e IH]; [reflexivity|]. cbn [app find fst]. destruct (String.eqb n s); [reflexivity|exact IH].
Qed.

Definition not_frame (v : value) : Prop := match v with Vec _ | Codes _ => True | _ => False end.

Lemma mapM_In {A B} (f : A -> outcome B) l r x : mapM f l = Ok r -> In x l -> exists y, f x = Ok y /\ In y r.
Proof.
  intros H Hx. apply mapM_Forall2 in H. induction H as [|a b l r Hab H IH]; [destruct Hx|].
  destruct Hx as [->|Hx]; [exists b; split; [exact Hab|now left]|]. destruct (IH Hx) as [y [Hy Iy]]. exists y. split; [exact Hy|now right].
Qed.

Lemma mapM_In' {A B} (f : A -> outcome B) l r y : mapM f l = Ok r -> In y r -> exists x, f x = Ok y /\ In x l.
Proof.
  intros H Hx. apply mapM_Forall2 in H. induction H as [|a b l r Hab H IH]; [destruct Hx|].
  destruct Hx as [->|Hx]; [exists a; split; [exact Hab|now left]|]. destruct (IH Hx) as [x [Hy Iy]]. exists x. split; [exact Hy|now right].
Qed.

Ltac cases_apply H :=
  repeat match type of H with
  | (if String.eqb ?f ?s then _ else _) = _ => destruct (String.eqb f s) eqn:?
  end.

Lemma apply_not_frame o f vs w : List.Forall not_frame vs -> apply o f vs = Ok w -> not_frame w.
Proof.
  intros N H. unfold apply in H. cases_apply H.
  1: destruct vs as [|a [|b [|]]]; try discriminate H; unfold arith, arith1 in H; repeat (apply bind_Ok in H; destruct H as [? [? H]]); injection H as <-; exact I.
  1: destruct vs as [|a [|b [|]]]; try discriminate H; unfold arith, arith1 in H; repeat (apply bind_Ok in H; destruct H as [? [? H]]); injection H as <-; exact I.
  1: destruct vs as [|a [|b [|]]]; try discriminate H; unfold arith, arith1 in H; repeat (apply bind_Ok in H; destruct H as [? [? H]]); injection H as <-; exact I.
  1: destruct vs as [|a [|b [|]]]; try discriminate H; unfold arith, arith1 in H; repeat (apply bind_Ok in H; destruct H as [? [? H]]); injection H as <-; exact I.
  1: { destruct vs as [|a [|]]; try discriminate H. injection H as <-. now inversion N. }
  1: { destruct vs as [|a is]; try discriminate H. inversion N as [|? ? Na ?]; subst. apply bind_Ok in H. destruct H as [js [_ H]].
       unfold subscript in H. destruct a; try destruct Na; destruct js as [|j [|]]; try discriminate H; apply bind_Ok in H; destruct H as [? [_ H]]; injection H as <-; exact I. }
  all: try (repeat match goal with Hh : List.Forall not_frame (_ :: _) |- _ => inversion Hh; clear Hh; subst end;
       destruct vs as [|[]]; try discriminate H; inversion N as [|? ? Na N']; subst; try destruct Na;
       destruct vs as [|[] [|]]; try discriminate H; inversion N' as [|? ? Nb ?]; subst; destruct Nb).
  apply bind_Ok in H. destruct H as [? [_ H]]. apply bind_Ok in H. destruct H as [? [_ H]]. injection H as <-. exact I.
Qed.

Lemma eval_not_frame o e x w : plain e -> eval o e x = Ok w -> not_frame w.
Proof.
  intros P. revert w. induction x as [c|s|xs IH] using rexpr_ind'; intros w H.
  - injection H as <-. exact I.
  - cbn [eval] in H. apply get_In in H. exact (P _ _ H).
  - destruct xs as [|[c|f|hs] args]; try discriminate H. rewrite eval_call in H. apply bind_Ok in H. destruct H as [vs [Hvs H]].
    apply (apply_not_frame o f vs w); [|exact H]. apply mapM_Forall2 in Hvs. inversion IH as [|? ? _ IHa]; subst. clear IH H.
    induction Hvs as [|y v args vs Hy Hvs IHv]; [constructor|]. inversion IHa as [|? ? IHy IHa']; subst.
    constructor; [exact (IHy v Hy)|exact (IHv IHa')].
Qed.

(** A frame as a third argument is always an error. *)
Lemma apply_third o f v1 v2 vs g w : In (Frame g) vs -> apply o f (v1 :: v2 :: vs) <> Ok w.
Proof.
  intros G H. unfold apply in H. destruct vs as [|v3 vs]; [destruct G|]. cases_apply H; try discriminate H.
  - apply bind_Ok in H. destruct H as [js [Hjs _]]. destruct (mapM_In _ _ _ (Frame g) Hjs) as [y [Hy _]]; [right; exact G|discriminate Hy].
  - destruct v1, v2; discriminate H.
  - destruct v1, v2; discriminate H.
  - destruct v1, v2; discriminate H.
  - destruct v1, v2; discriminate H.
  - destruct v1; discriminate H.
  - apply bind_Ok in H. destruct H as [js [Hjs _]]. destruct (mapM_In _ _ _ (Frame g) Hjs) as [y [Hy _]]; [right; right; exact G|discriminate Hy].
Qed.

(** The number of indices. *)
Section D.
Variable subvar : string.
Fixpoint dims_go (d : option nat) (l : list rexpr) : outcome (option nat) :=
  match l with [] => Ok d | y :: l' => d' <- find_dim_sub subvar d y ;; dims_go d' l' end.
Lemma find_dim_call d xs : find_dim_sub subvar d (Call xs) =
  (d1 <- match xs with
         | h :: a :: rest =>
             if is_name h "[" && is_name a subvar then
               match d with
               | Some k => if Nat.eqb k (length rest) then Ok d else Throw RuntimeError
               | None => Ok (Some (length rest))
               end
             else Ok d
         | _ => Ok d
         end ;; dims_go d1 xs).
Proof. reflexivity. Qed.


Lemma find_dim_keep x : (forall k d', find_dim_sub subvar (Some k) x = Ok d' -> d' = Some k) /\
  (forall d k, find_dim_sub subvar d x = Ok (Some k) -> all_calls (dimension subvar k) x).
Proof.
  induction x as [c|s|xs IH] using rexpr_ind'.
  - split; [intros k d' [= <-]; reflexivity|intros; exact I].
  - split; [intros k d' [= <-]; reflexivity|intros; exact I].
  - assert (K : forall k d', dims_go (Some k) xs = Ok d' -> d' = Some k).
    { clear -IH. induction xs as [|y xs IHx]; intros k d' H; cbn [dims_go] in H; [now injection H as <-|].
      inversion IH as [|? ? [IHy _] IH']; subst. apply bind_Ok in H. destruct H as [d1 [H1 H]]. rewrite (IHy _ _ H1) in H. exact (IHx IH' _ _ H). }
    assert (A : forall d k, dims_go d xs = Ok (Some k) -> List.Forall (all_calls (dimension subvar k)) xs).
    { clear K. induction xs as [|y xs IHx]; intros d k H; [constructor|]. cbn [dims_go] in H.
      inversion IH as [|? ? [IHy IHy'] IH']; subst. apply bind_Ok in H. destruct H as [d1 [H1 H]]. constructor; [|exact (IHx IH' _ _ H)].
      destruct d1 as [j|]; [|].
      + assert (E : Some k = Some j).
        { clear -H IH'. revert H. induction xs as [|z xs IHx]; intros H; cbn [dims_go] in H; [now injection H as <-|].
          inversion IH' as [|? ? [IHz _] IH'']; subst. apply bind_Ok in H. destruct H as [d1 [H1 H]]. rewrite (IHz _ _ H1) in H. exact (IHx IH'' H). }
        injection E as <-. exact (IHy' _ _ H1).
      + (* no subscript of the variable in y *)
        clear -H1 IHy'. assert (Q : forall z d, find_dim_sub subvar d z = Ok None -> all_calls (dimension subvar k) z).
        { clear. induction z as [c|s|zs IH] using rexpr_ind'; intros d H; [exact I|exact I|]. rewrite find_dim_call in H.
          apply bind_Ok in H. destruct H as [d1 [H1 H]].
          assert (P : forall d zs', dims_go d zs' = Ok None -> d = None).
          { clear. assert (S : forall z d, find_dim_sub subvar d z = Ok None -> d = None).
            { induction z as [c|s|zs IH] using rexpr_ind'; intros d H; [now injection H as ->|now injection H as ->|]. rewrite find_dim_call in H.
              apply bind_Ok in H. destruct H as [d1 [H1 H]]. assert (E : d1 = None).
              { clear H1. revert d1 H. induction zs as [|y zs IHz]; intros d1 H; cbn [dims_go] in H; [now injection H as ->|].
                inversion IH as [|? ? IHy IH']; subst. apply bind_Ok in H. destruct H as [d2 [H2 H]]. rewrite (IHz IH' _ H) in H2. exact (IHy _ H2). }
              subst d1. destruct zs as [|h [|a r]]; [now injection H1 as ->|now injection H1 as ->|].
              destruct (is_name h "[" && is_name a subvar); [|now injection H1 as ->]. destruct d as [j|]; [|reflexivity]. destruct (Nat.eqb j (length r)); discriminate H1. }
            intros d zs'. revert d. induction zs' as [|y zs' IHz]; intros d H; cbn [dims_go] in H; [now injection H as ->|].
            apply bind_Ok in H. destruct H as [d2 [H2 H]]. rewrite (IHz _ H) in H2. exact (S _ _ H2). }
          pose proof (P _ _ H) as E1. subst d1. apply all_calls_call. split.
          - destruct zs as [|[c|f|hs] [|[c'|s|as'] r]]; try exact I. cbn [dimension is_name] in *. intros -> ->.
            rewrite !String.eqb_refl in H1. cbn [andb] in H1. destruct d as [j|]; [destruct (Nat.eqb j (length r)); discriminate H1|discriminate H1].
          - clear H1. revert H. generalize (@None nat) at 1. intros d0. revert d0. induction zs as [|y zs IHz]; intros d0 H; [constructor|]. cbn [dims_go] in H.
            inversion IH as [|? ? IHy IH']; subst. apply bind_Ok in H. destruct H as [d2 [H2 H]]. constructor; [|exact (IHz IH' _ H)].
            rewrite (P _ _ H) in H2. exact (IHy _ H2). }
        exact (Q _ _ H1). }
    split.
    + intros k d' H. rewrite find_dim_call in H. apply bind_Ok in H. destruct H as [d1 [H1 H]].
      assert (E : d1 = Some k).
      { destruct xs as [|h [|a r]]; [now injection H1|now injection H1|]. destruct (is_name h "[" && is_name a subvar); [|now injection H1].
        destruct (Nat.eqb k (length r)); [now injection H1|discriminate H1]. }
      subst d1. exact (K _ _ H).
    + intros d k H. rewrite find_dim_call in H. apply bind_Ok in H. destruct H as [d1 [H1 H]]. apply all_calls_call. split; [|exact (A _ _ H)].
      destruct xs as [|[c|f|hs] [|[c'|s|as'] r]]; try exact I. cbn [dimension is_name] in *. intros -> ->.
      rewrite !String.eqb_refl in H1. cbn [andb] in H1.
      assert (E : d1 = Some (length r)).
      { destruct d as [j|]; [|now injection H1]. destruct (Nat.eqb_spec j (length r)) as [->|]; [now injection H1|discriminate H1]. }
      subst d1. pose proof (K _ _ H) as E. now injection E.
Qed.
End D.
