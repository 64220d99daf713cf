(** The unit tests of the repository (lib/nikfemm/test/unit_tests.cpp), run on the model in binary64.
    They are tests of the model against the expectations of its authors, and prove no property. *)
From Coq Require Import String.
From Coq Require Import List Arith ZArith NArith Bool.
From Verif Require Import Base AlgebraModel SolversModel.
Import ListNotations.

Definition i64 (n : Z) : f64 := ofZ FOps n.
Definition isok {A} (r : res A) (p : A -> bool) : bool := match r with Ok a => p a | _ => false end.
Definition entries : list ((nat * nat) * Z) := [((0, 0), 1%Z); ((0, 1), 2%Z); ((0, 2), 3%Z); ((1, 1), 4%Z); ((1, 2), 5%Z); ((2, 2), 6%Z)]%nat.
(** lines 12-19: the matrix of three tests *)
Definition fill_in : res (coo f64) :=
  fold_left (fun A e => A <- A ;; coo_modify (i64 0) A (fst (fst e)) (snd (fst e)) (fun _ => i64 (snd e)))
    entries (Ok (coo_new f64 3)).
Definition mat_csr : res (csr f64) := A <- fill_in ;; csr_build (i64 0) A.
Definition same (l : list f64) (e : list Z) : bool := (length l =? length e)%nat && forallb (fun p => eqb FOps (fst p) (i64 (snd p))) (combine l e).
Definition close (l : list f64) (e : list (Z * Z)) : bool :=
  (length l =? length e)%nat && forallb (fun p => isok (div FOps (i64 (fst (snd p))) (i64 (snd (snd p)))) (fun want =>
    isok (div FOps (i64 1) (i64 1000000)) (fun tol => ltb FOps (fabs FOps (sub FOps (fst p) want)) tol))) (combine l e).
Definition quot (a b : Z) : f64 := match div FOps (i64 a) (i64 b) with Ok e => e | _ => i64 0 end.
Definition zero3 : list f64 := [i64 0; i64 0; i64 0].

(** lines 10-29 *)
Definition csr_index : bool := isok mat_csr (fun C => forallb (fun e => isok (csr_at (i64 0) C (fst (fst e)) (snd (fst e))) (fun v => eqb FOps v (i64 (snd e)))) entries).
Example csr_index_passes : csr_index = true. Proof. vm_compute. reflexivity. Qed.
(** lines 31-58 *)
Definition csr_cv_mult : bool := isok (C <- mat_csr ;; mult_sym FOps zero3 C [i64 1; i64 2; i64 3]) (fun y => same y [14; 25; 31]%Z).
Example csr_cv_mult_passes : csr_cv_mult = true. Proof. vm_compute. reflexivity. Qed.
(** lines 60-92; the matrix is indefinite, and the solver has it in three steps *)
Definition csr_conjugate_gradient_solve : bool :=
  isok (C <- mat_csr ;; ssor_pcg FOps C [i64 14; i64 32; i64 54] zero3 (quot 3 2) (quot 1 1000000) 1000) (fun r => close (fst r) [(26, 1); (0, 1); (-4, 1)]%Z).
Example csr_conjugate_gradient_solve_passes : csr_conjugate_gradient_solve = true. Proof. vm_compute. reflexivity. Qed.
(** lines 98-322: x = (1, 2, 3), y = (4, 5, 6) and a result z, as vectors 0, 1 and 2 *)
Definition xyz : store FOps := fun n => match n with 0 => [i64 1; i64 2; i64 3] | 1 => [i64 4; i64 5; i64 6] | _ => zero3 end.
Definition cv (r : res (store FOps)) (e : list (Z * Z)) : bool :=
  isok r (fun st => (length (st 2%nat) =? length e)%nat && forallb (fun p => eqb FOps (fst p) (quot (fst (snd p)) (snd (snd p)))) (combine (st 2%nat) e)).
Example cv_passes :
  cv (v_mult FOps xyz 2 0 1) [(4, 1); (10, 1); (18, 1)]%Z = true /\
  cv (v_scale FOps xyz 2 (i64 2) 0) [(2, 1); (4, 1); (6, 1)]%Z = true /\
  cv (v_add FOps xyz 2 0 1) [(5, 1); (7, 1); (9, 1)]%Z = true /\
  cv (v_sub FOps xyz 2 0 1) [(-3, 1); (-3, 1); (-3, 1)]%Z = true /\
  cv (v_div FOps xyz 2 0 1) [(1, 4); (4, 10); (1, 2)]%Z = true /\
  cv (v_divs FOps xyz 2 0 (i64 2)) [(1, 2); (1, 1); (3, 2)]%Z = true /\
  cv (v_subs FOps xyz 2 0 (i64 2)) [(-1, 1); (0, 1); (1, 1)]%Z = true /\
  cv (v_adds FOps xyz 2 0 (i64 2)) [(3, 1); (4, 1); (5, 1)]%Z = true /\
  isok (dot FOps (xyz 0) (xyz 1)) (fun v => eqb FOps v (i64 32)) = true /\
  cv (v_addScaled FOps xyz 2 0 (i64 2) 1) [(9, 1); (12, 1); (15, 1)]%Z = true /\
  isok (squareSum FOps (xyz 0)) (fun v => eqb FOps v (i64 14)) = true /\
  cv (v_copy FOps xyz 2 0) [(1, 1); (2, 1); (3, 1)]%Z = true.
Proof. vm_compute. repeat split. Qed.
(** lines 328-389 *)
Definition dirichlet : bool :=
  isok (A <- fill_in ;; S <- dDirichlet FOps (mkSys f64 A [i64 14; i64 32; i64 54]) 0 (i64 1) ;; S <- dDirichlet FOps S 1 (i64 2) ;;
        C <- csr_build (i64 0) (sA _ S) ;; e <- div FOps (quot 1 1000000) (i64 10000) ;;
        ssor_pcg FOps C (sb _ S) zero3 (quot 3 2) e 1000) (fun r => close (fst r) [(1, 1); (2, 1); (41, 6)]%Z).
Example current_density_dirichlet_boundary_conditions_passes : dirichlet = true. Proof. vm_compute. reflexivity. Qed.
