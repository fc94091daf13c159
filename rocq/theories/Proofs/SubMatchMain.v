(** The checks on the terms with substituted variables. *)
From Coq Require Import String List Bool Arith Lia.
From Verif Require Import Model.Base Model.Subexpr Spec.SubexprSpec Proofs.SubexprLemmas.
Import ListNotations.
Local Open Scope string_scope.

Lemma distinct_In x l : In x (distinct l) <-> In x l.
Proof.
  induction l as [|y l IH]; [tauto|]. cbn [distinct In]. rewrite filter_In, IH. split.
  - intros [->|[H _]]; [now left|now right].
  - intros [->|H]; [now left|]. destruct (String.eqb_spec y x) as [->|N]; [now left|]. right. split; [exact H|].
    destruct (String.eqb_spec y x); [contradiction|reflexivity].
Qed.

Lemma find_vars_call vars xs : find_vars vars (Call xs) = distinct (concat (map (find_vars vars) xs)).
Proof. cbn [find_vars]. f_equal. induction xs as [|y xs IH]; [reflexivity|]. cbn [map concat]. now rewrite IH. Qed.

Lemma find_vars_In vars x s : In s (find_vars vars x) <-> In s vars /\ occurs s x = true.
Proof.
  induction x as [c|t|xs IH] using rexpr_ind'.
  - cbn. split; [easy|]. intros [_ H]. discriminate H.
  - cbn [find_vars occurs]. destruct (existsb (String.eqb t) vars) eqn:E; cbn [In].
    + apply existsb_exists in E. destruct E as [u [Hu E]]. apply String.eqb_eq in E. subst u. split.
      * intros [->|[]]. split; [exact Hu|apply String.eqb_refl].
      * intros [_ H]. apply String.eqb_eq in H. now left.
    + split; [easy|]. intros [H1 H]. apply String.eqb_eq in H. subst t.
      assert (T : existsb (String.eqb s) vars = true) by (apply existsb_exists; exists s; split; [exact H1|apply String.eqb_refl]). congruence.
  - rewrite find_vars_call, distinct_In, in_concat, occurs_call, existsb_exists. rewrite Forall_forall in IH. split.
    + intros [l [Hl Hs]]. apply in_map_iff in Hl. destruct Hl as [y [<- Hy]]. apply (IH y Hy) in Hs. destruct Hs as [A B]. split; [exact A|]. now exists y.
    + intros [A [y [Hy B]]]. exists (find_vars vars y). split; [now apply in_map|]. apply (IH y Hy). now split.
Qed.

Lemma any_spec n : any n = (if existsb (fun k => negb (Nat.eqb k 0)) n then 1 else 0)%nat.
Proof. reflexivity. Qed.

Lemma check_main subvars es : (check_subexprs subvars es = Ok tt <-> exists e, In e es /\ involves subvars e) /\
  (check_subexprs subvars es = Ok tt \/ check_subexprs subvars es = Throw RuntimeError).
Proof.
  unfold check_subexprs. rewrite any_spec.
  assert (E : existsb (fun k => negb (Nat.eqb k 0)) (map (fun e => length (find_vars subvars e)) es) = true <-> exists e, In e es /\ involves subvars e).
  { rewrite existsb_exists. split.
    - intros [k [Hk N]]. apply in_map_iff in Hk. destruct Hk as [e [<- He]]. exists e. split; [exact He|].
      destruct (find_vars subvars e) as [|s l] eqn:F; [discriminate N|]. exists s. apply (find_vars_In subvars e s). rewrite F. now left.
    - intros [e [He [s Hs]]]. exists (length (find_vars subvars e)). split; [now apply (in_map (fun e => length (find_vars subvars e)))|].
      apply find_vars_In in Hs. destruct (find_vars subvars e); [destruct Hs|reflexivity]. }
  destruct (existsb _ _); cbn [Nat.ltb Nat.leb Nat.eqb]; (split; [|tauto]).
  - split; [intros _; now apply E|reflexivity].
  - split; [discriminate|]. intros H. apply E in H. discriminate H.
Qed.

Theorem C43_checks_main subvars es : check_subexprs subvars es = Ok tt <-> exists e, In e es /\ involves subvars e.
Proof. apply check_main. Qed.

Theorem C43_every_term_main subvars es r : subvars <> [] -> match_subform_subexpr subvars es = Ok r -> forall e, In e es -> involves subvars e.
Proof.
  intros NE H e He. unfold match_subform_subexpr in H. apply bind_Ok in H. destruct H as [u [_ H]].
  destruct subvars as [|s subvars']; [easy|]. cbn [mapM] in H. apply bind_Ok in H. destruct H as [a [Ha _]]. unfold add_subexpr in Ha.
  apply bind_Ok in Ha. destruct Ha as [firsts [Hf _]].
  destruct (mapM_In _ _ _ (find_vars (s :: subvars') e) Hf) as [y [Hy _]]; [now apply in_map|].
  destruct (find_vars (s :: subvars') e) as [|t l] eqn:F; [discriminate Hy|]. exists t. apply (find_vars_In (s :: subvars') e t). rewrite F. now left.
Qed.

Theorem C43_two_main : exists subvars es r, match_subform_subexpr subvars es = Ok r /\ exists e, In e es /\ involves_two subvars e.
Proof.
  exists ["a"; "b"], [Call [Name "+"; Call [Name "["; Name "a"; Name "i"]; Call [Name "["; Name "b"; Name "i"]]].
  eexists. split; [reflexivity|]. eexists. split; [now left|]. exists "a", "b". repeat split; try (cbn; tauto). discriminate.
Qed.

Theorem C43_none_main : exists subvars es, check_subexprs subvars es = Ok tt /\ exists e, In e es /\ ~ involves subvars e.
Proof.
  exists ["a"], [Call [Name "["; Name "a"; Name "i"]; Name "x"]. split; [reflexivity|]. exists (Name "x"). split; [right; now left|].
  intros [s [[<-|[]] H]]. discriminate H.
Qed.
