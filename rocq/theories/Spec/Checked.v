(** The code with a findRelativeItem that fails on a missing item: every function
    of Model/Mixed.v and Model/ClusterGraph.v that looks items up, with a check
    added in front of each lookup.  A run of the checked program that gives the
    same result as the program has met no missing item. *)
From Coq Require Import List ZArith Bool.
From Verif Require Import Model.Base Model.Items Model.Mixed Model.ClusterGraph Spec.MessageSpec.
Import ListNotations.

Section Chk.
Context {S : sig}.
Notation mixed := (mixed S).

(** Fail unless every item of [subset] is in [items]. *)
Definition look (subset items : list Z) : outcome unit :=
  if forallb (fun i => existsb (Z.eqb i) items) subset then Ok tt else Throw DomainError.

(** src/MixedContinuousBelief.cpp:252, once per factor. *)
Definition look_all (bs : list (B S)) (items : list Z) : outcome unit :=
  foldM (fun _ b => look (bscope S b) items) bs tt.

Definition c_of_belief (b : B S) : outcome mixed :=
  _ <- look (bscope S b) (bscope S b) ;; Ok (mixed_of_belief b).

(** src/NormalBelief.cpp:64 and :74, src/MixedContinuousBelief.cpp:252. *)
Definition c_mul (m o : mixed) : outcome mixed :=
  _ <- (if m_fixed m then Ok tt else look (n_items (m_normal o)) (n_items (m_normal m))) ;;
  _ <- look_all (m_beliefs m ++ m_beliefs o) (n_items (m_normal m)) ;;
  Ok (mixed_mul m o).
Definition c_div (m o : mixed) : outcome mixed :=
  _ <- (if m_fixed m then Ok tt else look (n_items (m_normal o)) (n_items (m_normal m))) ;;
  _ <- look_all (m_beliefs m ++ m_beliefs o) (n_items (m_normal m)) ;;
  Ok (mixed_div m o).

(** src/NormalBelief.cpp:81. *)
Definition c_nmargin (n : nbelief S) (items : list Z) : outcome (nbelief S) :=
  _ <- look items (n_items n) ;; Ok (n_margin n items).

(** src/MixedContinuousBelief.cpp:199 and :217. *)
Definition c_deriv (m : mixed) (x : list (D S)) : outcome (list (D S)) :=
  _ <- look_all (m_beliefs m) (m_items m) ;; evaluateDerivative m x.
Definition c_deriv2 (m : mixed) (x : list (D S)) : outcome (list (list (D S))) :=
  _ <- look_all (m_beliefs m) (m_items m) ;; evaluateSecondDerivative m x.

(** src/MixedContinuousBelief.cpp:64. *)
Definition c_integrate (m : mixed) (item : Z) : outcome mixed :=
  _ <- look [item] (m_items m) ;;
  let relativeItem := findRelativeItem item (m_items m) in
  let remainingItems := erase (m_items m) relativeItem in
  belief <- b_integral S (evaluate m) (c_deriv m) (c_deriv2 m)
                       relativeItem (n_normal (m_normal m)) remainingItems ;;
  mb <- c_of_belief belief ;;
  nm <- c_nmargin (m_normal m) remainingItems ;;
  Ok (setNormal mb nm).

Definition c_margin (m : mixed) (items : list Z) (normalApproxOnly : bool) : outcome mixed :=
  if normalApproxOnly then
    nm <- c_nmargin (m_normal m) items ;; Ok (setNormal (mixed_of_items items) nm)
  else foldM c_integrate (findItemsDifference (m_items m) items) m.

Definition c_lognorm (m : mixed) : outcome (D S) :=
  beliefEmpty <- c_margin m [] false ;; evaluate beliefEmpty [].

(** Cluster graph. *)
Fixpoint c_populateClusters (clusters : list mixed) (beliefs : list mixed)
  : outcome (list mixed) :=
  match clusters with
  | [] => Ok []
  | c :: cs =>
      c' <- foldM c_mul (filter (contained c) beliefs) c ;;
      cs' <- c_populateClusters cs (filter (fun b => negb (contained c b)) beliefs) ;;
      Ok (c' :: cs')
  end.
Definition c_make (beliefs : list mixed) : outcome (cgraph S) :=
  g <- Model.Graph.makeDependenceGraph (map m_items beliefs) ;;
  cg <- initialize emptyCG g ;;
  cs <- c_populateClusters (cg_clusters cg) beliefs ;;
  Ok (mkCG cs (cg_edges cg) false).
Definition c_build (fs : list (B S)) : outcome (cgraph S) :=
  bs <- mapM c_of_belief fs ;; c_make bs.

Definition c_passMessage (cg : cgraph S) (k : nat) (forward normalApproxOnly : bool)
  : outcome (cgraph S) :=
  e <- vec_get (cg_edges cg) k ;;
  let i := if forward then e_first e else e_second e in
  let j := if forward then e_second e else e_first e in
  ci <- zat (cg_clusters cg) i ;;
  b <- c_margin ci (m_items (e_belief e)) normalApproxOnly ;;
  cj <- zat (cg_clusters cg) j ;;
  cj1 <- c_mul cj b ;;
  cj2 <- c_div cj1 (e_belief e) ;;
  proper <- isProper cj2 ;;
  if proper : bool then
    Ok (mkCG (upd (cg_clusters cg) (Z.to_nat j) cj2)
             (upd (cg_edges cg) k (mkEdge (e_first e) (e_second e) b)) (cg_calibrated cg))
  else Throw RuntimeError.

Definition c_calibrateInternal (cg : cgraph S) (forward normalApproxOnly : bool)
  : outcome (cgraph S) :=
  let ids := seq 0 (length (cg_edges cg)) in
  foldM (fun c k => c_passMessage c k forward normalApproxOnly)
        (if forward then ids else rev ids) cg.
Definition c_calibrate (cg : cgraph S) : outcome (cgraph S) :=
  cg1 <- c_calibrateInternal cg true false ;;
  cg2 <- c_calibrateInternal cg1 false false ;;
  Ok (mkCG (cg_clusters cg2) (cg_edges cg2) true).

Definition c_setNormalApprox (cg : cgraph S) (mean : list (D S)) (precision : Z -> Z -> D S)
  : outcome (cgraph S) :=
  clusters <- mapM (fun c =>
                mu <- getVectorSubset S mean (m_items c) ;;
                Ok (setNormalApprox c mu (getSparseMatrixSubset S precision (m_items c))))
              (cg_clusters cg) ;;
  edges <- mapM (fun e =>
                mu <- getVectorSubset S mean (m_items (e_belief e)) ;;
                Ok (mkEdge (e_first e) (e_second e)
                     (setNormalApprox (e_belief e) mu
                        (getSparseMatrixSubset S precision (m_items (e_belief e))))))
              (cg_edges cg) ;;
  cg1 <- c_calibrateInternal (mkCG clusters edges (cg_calibrated cg)) true true ;;
  cg2 <- c_calibrateInternal cg1 false true ;;
  Ok (mkCG (map fixNormalApprox (cg_clusters cg2))
           (map (fun e => mkEdge (e_first e) (e_second e) (fixNormalApprox (e_belief e)))
                (cg_edges cg2))
           (cg_calibrated cg2)).

Fixpoint c_margin_loop (clusters : list mixed) (items : list Z) (default : mixed)
         (clusterId nClusters : nat) : outcome mixed :=
  match clusters with
  | [] => Ok default
  | c :: cs =>
      if isSubset items (m_items c) then c_margin c items false
      else
        let clusterId' := Datatypes.S clusterId in
        if (clusterId' =? nClusters)%nat then Throw DomainError
        else c_margin_loop cs items default clusterId' nClusters
  end.
Definition c_cgmargin (cg : cgraph S) (items : list Z) : outcome (mixed * cgraph S) :=
  cg' <- (if cg_calibrated cg then Ok cg else c_calibrate cg) ;;
  m <- c_margin_loop (cg_clusters cg') items (mixed_of_items items) 0
                     (length (cg_clusters cg')) ;;
  Ok (m, cg').

Definition c_extractBeliefs (cg : cgraph S) : outcome (list mixed) :=
  foldM (fun beliefs e =>
           b <- zat beliefs (e_second e) ;;
           b' <- c_div b (e_belief e) ;;
           Ok (upd beliefs (Z.to_nat (e_second e)) b'))
        (cg_edges cg) (cg_clusters cg).

Definition c_compute (cg : cgraph S) (mean : list (D S)) (precision : Z -> Z -> D S) : outcome (D S) :=
  cg1 <- c_setNormalApprox cg mean precision ;;
  cg2 <- c_calibrateInternal cg1 true false ;;
  finalBelief <- zat (cg_clusters cg2) (Z.of_nat (length (cg_clusters cg2)) - 1) ;;
  c_lognorm finalBelief.

Definition c_run_op (cg : cgraph S) (o : op) : outcome (cgraph S) :=
  match o with
  | OpPass k f n => c_passMessage cg k f n
  | OpSetNormal mean prec => c_setNormalApprox cg mean prec
  | OpForward => c_calibrateInternal cg true false
  | OpBackward => c_calibrateInternal cg false false
  | OpCalibrate => c_calibrate cg
  | OpMargin items => r <- c_cgmargin cg items ;; Ok (snd r)
  end.
Definition c_run_ops (cg : cgraph S) (ops : list op) : outcome (cgraph S) := foldM c_run_op ops cg.
End Chk.
