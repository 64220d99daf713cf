(** Vocabulary for the solver properties (C08-C13, C55).  No proofs. *)
From Coq Require Import String.
From Coq Require Import List Arith ZArith NArith Bool Reals.
From Verif Require Import Base SumR AlgebraModel AlgebraSpec SolversModel.
Import ListNotations.

(** C is the CSR form of a complete symmetric matrix A *)
Definition ready {V} (v0 : V) (A : coo V) (C : csr V) : Prop :=
  valid_coo A /\ fits A /\ all_diag_touched A /\ csr_build v0 A = Ok C.

(** the four entry points *)
Inductive solver (T : Type) := CG | JacobiCG | SsorCG (omega : T) | CholeskyCG.
Arguments CG {T}.
Arguments JacobiCG {T}.
Arguments SsorCG {T}.
Arguments CholeskyCG {T}.
(** solution left in x, and whether the run ended before the iteration limit *)
Definition run (o : Ops) (s : solver (T o)) (C : csr (T o)) (b x : list (T o)) (maxError : T o) (maxIterations : nat)
  : res (list (T o) * option nat) :=
  match s with
  | CG => cg o C b x maxError maxIterations
  | JacobiCG => jacobi_pcg o C b x maxError maxIterations
  | SsorCG w => ssor_pcg o C b x w maxError maxIterations
  | CholeskyCG => ic_pcg o C b x maxError maxIterations
  end.
(** scalar division and root may produce non-finite numbers but do not crash *)
Definition scalar_ops_total (o : Ops) : Prop :=
  (forall a b, ~ is_ub (div o a b) /\ ~ is_throw (div o a b)) /\ (forall a, ~ is_ub (fsqrt o a) /\ ~ is_throw (fsqrt o a)).

Local Open Scope R_scope.
Definition row (A : coo R) (x : list R) (i : nat) : R := sumn (cm A) (fun j => value 0 A i j * vget x j).
(** |b - A x| *)
Definition residual_norm (A : coo R) (b x : list R) : R := sqrt (sumn (cm A) (fun i => (vget b i - row A x i) * (vget b i - row A x i))).
Definition is_solution (A : coo R) (b x : list R) : Prop := forall i, (i < cm A)%nat -> row A x i = vget b i.
Definition spd (A : coo R) : Prop := posdef (cm A) (value 0 A).
(** squared energy norm of x - xs *)
Definition energy_error (A : coo R) (x xs : list R) : R := quad (cm A) (value 0 A) (fun i => vget x i - vget xs i).

(** entries of D + w L and D + w U *)
Definition lower_w (A : coo R) (w : R) (i j : nat) : R :=
  if Nat.ltb j i then w * value 0 A i j else if Nat.eqb j i then value 0 A i i else 0.
Definition upper_w (A : coo R) (w : R) (i j : nat) : R :=
  if Nat.ltb i j then w * value 0 A i j else if Nat.eqb j i then value 0 A i i else 0.
(** ((D + w L) D^-1 (D + w U) z)_i *)
Definition ssor_matrix_times (A : coo R) (w : R) (z : list R) (i : nat) : R :=
  sumn (cm A) (fun j => lower_w A w i j * / value 0 A j j * sumn (cm A) (fun k => upper_w A w j k * vget z k)).

(** same stored positions *)
Definition pattern_of {V} (C L : csr V) : Prop :=
  m L = m C /\ row_ptr L = row_ptr C /\ col_ind L = col_ind C /\ length (val L) = length (val C) /\ length (diag L) = length (diag C).

(** L is the factor used for A, and the preconditioned matrix has no direction whose step length falls under DBL_EPSILON *)
Definition cholesky_usable (A : coo R) (C L : csr R) : Prop :=
  ic_decomposition ROps C = Ok L /\
  forall t u r z t', length t = cm A -> length u = cm A -> length r = cm A -> ic_apply ROps L t u r = Ok (t', z) ->
    quad (cm A) (value 0 A) (vget z) <= 2 ^ 52 * dotR r z.
(** the solver may be used on A *)
Definition usable (s : solver R) (A : coo R) (C : csr R) : Prop :=
  match s with
  | CG => True
  | JacobiCG => True
  | SsorCG w => 0 < w < 2 /\ cm A <> O
  | CholeskyCG => exists L, cholesky_usable A C L
  end.
