(** Model of MagnetostaticSimulation::solve, lib/nikfemm/src/magnetostatic/simulation.cpp 89-168.
    The permeabilities the function ends with and the iteration it reports are returned with the potential. *)
From Coq Require Import String.
From Coq Require Import List Arith ZArith NArith Bool.
From Verif Require Import Base AlgebraModel SolversModel GeometryModel DrawingModel MeshModel MaterialModel.
Import ListNotations.

Section SimM.
Variable o : Ops.
Notation T := (T o).
Notation vec := (vec o).
Notation prop := (mprop o).
Variable fexp : T -> T.
Variable vacuum : T.

(** 95-98: the material of every triangle *)
Definition fill_props (m : mesh o prop) : res (list prop) :=
  map_res (fun i => a <- get (m_attrs m) i ;; getRegionPtrFromId o prop (m_drawing m) a) (seq 0 (length (m_tris m))).
(** 103-106 *)
Definition initial_mu (props : list prop) : res (list T) := map_res (fun p => getMu o p (zero o)) props.
(** 108-110, 146-148: the right-hand side *)
Definition eval_b (b : list (nexpr o)) (mu : list T) : res (list T) := map_res (fun e => ne_eval o e mu) b.

(** one pass of 129-160: potential, permeabilities, matrix, right-hand side, scratch vector r and residual *)
Record pass := mkPass { q_x : list T; q_mu : list T; q_F : ncsr o; q_b : list T; q_r : list T; q_res : T }.
Definition one_pass (m : mesh o prop) (S : nsystem o) (props : list prop) (omega tol : T) (i : nat) (q : pass) : res pass :=
  '(x, _) <- ssor_pcg o (ncsr_csr o (q_F q)) (q_b q) (q_x q) omega tol 50 ;;
  B <- computeCurl o prop m x ;;
  mu <- updateMu o fexp vacuum B props (q_mu q) (q_res q) i ;;
  F <- ncsr_evaluate o (sA _ S) (q_F q) mu ;;
  b <- eval_b (sb _ S) mu ;;
  r <- mult_sym o (q_r q) (ncsr_csr o F) x ;;
  r <- zip2 o (sub o) b r ;;
  residual <- AlgebraModel.norm o r ;;
  Ok (mkPass x mu F b r residual).
(** 128-160: [n] passes remain *)
Fixpoint passes (m : mesh o prop) (S : nsystem o) (props : list prop) (omega tol : T) (n i : nat) (q : pass) : res (pass * option nat) :=
  match n with
  | O => Ok (q, None)
  | Datatypes.S n' =>
      q <- one_pass m S props omega tol i q ;;
      if ltb o (q_res q) tol then Ok (q, Some i) else passes m S props omega tol n' (Datatypes.S i) q
  end.

(** 89-168: solve *)
Definition ms_solve (m : mesh o prop) (S : nsystem o) : res (list T * list T * option nat) :=
  props <- fill_props m ;;
  F <- ncsr_build o (sA _ S) ;;
  mu <- initial_mu props ;;
  F <- ncsr_evaluate o (sA _ S) F mu ;;
  b <- eval_b (sb _ S) mu ;;
  omega <- div o (ofZ o 3) (ofZ o 2) ;;
  let x := zeros o (length (m_points m)) in
  if forallb (isLinear o) props then
    tol <- div o (one o) (ofZ o (10 ^ 6)) ;;
    '(x, st) <- ssor_pcg o (ncsr_csr o F) b x omega tol (N.to_nat 100000) ;;
    Ok (x, mu, st)
  else
    tol <- div o (one o) (ofZ o (10 ^ 7)) ;;
    '(q, st) <- passes m S props omega tol 500 0 (mkPass x mu F b (zeros o (length (sb _ S))) (ofZ o (10 ^ 10))) ;;
    Ok (q_x q, q_mu q, st).

End SimM.
Arguments mkPass {o}.
Arguments q_x {o}.
Arguments q_mu {o}.
Arguments q_F {o}.
Arguments q_b {o}.
Arguments q_r {o}.
Arguments q_res {o}.
