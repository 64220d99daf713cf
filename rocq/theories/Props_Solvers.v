(** Properties C08-C13, C55 and C56.  Vocabulary in SolversSpec.v, model in SolversModel.v. *)
From Coq Require Import String.
From Coq Require Import List Arith ZArith NArith Bool Lia Reals Lra.
From Verif Require Import Base SumR AlgebraModel AlgebraSpec SolversModel SolversSpec Solvers_bridge Props_Algebra.
Import ListNotations.
Local Open Scope R_scope.

(** the running example: the 3 x 3 matrix 2,-1 of Props_Algebra.v *)
Definition exM : coo R := exA 2 (-1).
Definition exC : csr R := mkCsr [0%nat; 1%nat; 2%nat; 2%nat] [1%nat; 2%nat] [-1; -1] [2; 2; 2] 2 3.
Example exM_ready : ready 0 exM exC.
Proof. destruct (exA_valid R 2 (-1)) as [H1 [H2 H3]]. split; [exact H1|]. split; [exact H2|]. split; [exact H3|]. reflexivity. Qed.
Example exM_spd : spd exM.
Proof.
  intros x [i [Hi N]]. unfold quad. cbn [exM exA cm sumn value find_key elems] in *.
  unfold value, find_key, exM, exA; cbn [elems cm find fst snd]. cbv [key Nat.min Nat.max N.eqb N.of_nat Pos.of_succ_nat N.add N.mul N.shiftl N.lor find fst snd option_map Pos.eqb Pos.succ Pos.add Pos.mul Pos.shiftl Pos.iter Pos.lor N.pow Pos.pow].
  replace (_ + _) with (x 0%nat * x 0%nat + (x 0%nat - x 1%nat) * (x 0%nat - x 1%nat) + (x 1%nat - x 2%nat) * (x 1%nat - x 2%nat) + x 2%nat * x 2%nat) by ring.
  assert (Q : forall a, 0 <= a * a) by (intros; apply Rle_0_sqr).
  assert (P : forall a, a <> 0 -> 0 < a * a) by (intros; apply Rsqr_pos_lt; auto).
  pose proof (Q (x 0%nat)). pose proof (Q (x 2%nat)). pose proof (Q (x 0%nat - x 1%nat)). pose proof (Q (x 1%nat - x 2%nat)).
  destruct i as [|[|[|i]]]; [| | |lia].
  - pose proof (P _ N). lra.
  - destruct (Req_dec (x 0%nat) 0) as [Z|Z]; [|pose proof (P _ Z); lra]. rewrite Z in *. pose proof (P (0 - x 1%nat)). lra.
  - pose proof (P _ N). lra.
Qed.

(** *** C08: the SSOR preconditioner *)
Theorem C08_ssor_solves_its_matrix : forall (A : coo R) (C : csr R), ready 0 A C -> cm A <> O ->
  (forall i, (i < cm A)%nat -> value 0 A i i <> 0) ->
  forall (w : R) (buf r : list R), length buf = cm A -> length r = cm A ->
  exists z : list R, ssor ROps C buf r w = Ok z /\ length z = cm A /\
    forall i, (i < cm A)%nat -> ssor_matrix_times A w z i = w * (2 - w) * vget r i.
Proof. exact ssor_total. Qed.
Print Assumptions C08_ssor_solves_its_matrix.
Theorem C08_ssor_unique : forall (A : coo R) (C : csr R), ready 0 A C -> cm A <> O ->
  (forall i, (i < cm A)%nat -> value 0 A i i <> 0) ->
  forall (w : R) (buf r z z' : list R), length buf = cm A -> length r = cm A -> ssor ROps C buf r w = Ok z -> length z' = cm A ->
  (forall i, (i < cm A)%nat -> ssor_matrix_times A w z' i = w * (2 - w) * vget r i) -> z' = z.
Proof. exact ssor_only. Qed.
Print Assumptions C08_ssor_unique.
Theorem C08_ssor_linear : forall (A : coo R) (C : csr R), ready 0 A C -> cm A <> O ->
  (forall i, (i < cm A)%nat -> value 0 A i i <> 0) ->
  forall (w t : R) (buf r z r' z' s zs : list R), length buf = cm A -> length r = cm A -> length r' = cm A -> length s = cm A ->
  (forall i, (i < cm A)%nat -> vget s i = vget r i + t * vget r' i) ->
  ssor ROps C buf r w = Ok z -> ssor ROps C buf r' w = Ok z' -> ssor ROps C buf s w = Ok zs ->
  forall i, (i < cm A)%nat -> vget zs i = vget z i + t * vget z' i.
Proof. exact ssor_lin. Qed.
Print Assumptions C08_ssor_linear.
Theorem C08_ssor_symmetric : forall (A : coo R) (C : csr R), ready 0 A C -> cm A <> O ->
  (forall i, (i < cm A)%nat -> value 0 A i i <> 0) ->
  forall (w : R) (buf r z r' z' : list R), w * (2 - w) <> 0 -> length buf = cm A -> length r = cm A -> length r' = cm A ->
  ssor ROps C buf r w = Ok z -> ssor ROps C buf r' w = Ok z' -> dotR r z' = dotR r' z.
Proof. exact ssor_symm. Qed.
Print Assumptions C08_ssor_symmetric.
Theorem C08_ssor_positive : forall (A : coo R) (C : csr R), ready 0 A C -> cm A <> O ->
  (forall i, (i < cm A)%nat -> value 0 A i i <> 0) ->
  forall (w : R) (buf r z : list R), 0 < w < 2 -> (forall i, (i < cm A)%nat -> 0 < value 0 A i i) -> length buf = cm A -> length r = cm A ->
  ssor ROps C buf r w = Ok z -> (exists i, (i < cm A)%nat /\ vget r i <> 0) -> 0 < dotR r z.
Proof. exact ssor_pos. Qed.
Print Assumptions C08_ssor_positive.
Example C08_example : ready 0 exM exC /\ cm exM <> O /\ (forall i, (i < cm exM)%nat -> 0 < value 0 exM i i) /\ length [1; 0; 5] = cm exM.
Proof.
  split; [apply exM_ready|]. split; [discriminate|]. split; [|reflexivity]. intros i Hi. cbn in Hi.
  destruct i as [|[|[|i]]]; [| | |lia]; match goal with |- 0 < ?v => change v with 2 end; lra.
Qed.

(** *** C09: memory safety of the solvers *)
Theorem C09_solvers_in_bounds : forall (o : Ops) (s : solver (T o)) (A : coo (T o)) (C : csr (T o)) (b x : list (T o)) (e : T o) (k : nat),
  scalar_ops_total o -> ready (zero o) A C -> length b = cm A -> length x = cm A -> (forall w, s = SsorCG w -> cm A <> O) ->
  ~ is_ub (run o s C b x e k) /\ ~ is_throw (run o s C b x e k) /\
  forall q, run o s C b x e k = Ok q -> length (fst q) = cm A.
Proof. exact run_in_bounds. Qed.
Print Assumptions C09_solvers_in_bounds.
Theorem C09_ssor_preconditioner_in_bounds : forall (o : Ops) (A : coo (T o)) (C : csr (T o)) (r cv : list (T o)) (w : T o),
  scalar_ops_total o -> ready (zero o) A C -> cm A <> O -> length r = cm A -> length cv = cm A ->
  ~ is_ub (ssor o C r cv w) /\ ~ is_throw (ssor o C r cv w) /\ forall z, ssor o C r cv w = Ok z -> length z = cm A.
Proof. exact precond_in_bounds. Qed.
Print Assumptions C09_ssor_preconditioner_in_bounds.
Theorem C09_ssor_empty_out_of_bounds : forall (o : Ops) (A : coo (T o)) (C : csr (T o)) (b x : list (T o)) (w e : T o) (k : nat),
  scalar_ops_total o -> ready (zero o) A C -> cm A = O -> length b = O -> length x = O -> is_ub (run o (SsorCG w) C b x e k).
Proof. exact ssor_solver_empty. Qed.
Print Assumptions C09_ssor_empty_out_of_bounds.
Example scalars_total : scalar_ops_total ROps /\ scalar_ops_total FOps.
Proof. split; [apply total_ROps|]. split; cbn; intros; split; intros [? ?]; discriminate. Qed.
Definition ex0 {V} : coo V := mkCoo [] 0.
Definition ex0C {V} : csr V := mkCsr [0%nat] [] [] [] 0 0.
Example ex0_ready : forall V (v : V), ready v ex0 ex0C.
Proof.
  intros V v. split; [split; [constructor|intros k w []]|]. split; [split; reflexivity|]. split; [intros i Hi; inversion Hi|]. reflexivity.
Qed.
Theorem C09_solvers_in_bounds_refuted : exists (s : solver (T FOps)) (A : coo (T FOps)) (C : csr (T FOps)) (b x : list (T FOps)) (e : T FOps) (k : nat),
  ready (zero FOps) A C /\ length b = cm A /\ length x = cm A /\ is_ub (run FOps s C b x e k).
Proof.
  exists (SsorCG (one FOps)), ex0, ex0C, [], [], (eps9 FOps), 1%nat. split; [apply ex0_ready|]. split; auto. split; auto.
  apply (C09_ssor_empty_out_of_bounds FOps ex0); auto; [apply scalars_total|apply ex0_ready].
Qed.
Print Assumptions C09_solvers_in_bounds_refuted.

(** *** C10: a solver that stops early has a small true residual, one that does not has a large one *)
Theorem C10_stopping_is_about_the_true_residual : forall (A : coo R) (C : csr R) (b x : list R), ready 0 A C -> length b = cm A -> length x = cm A ->
  forall (s : solver R) (e : R) (k : nat) (x' : list R) (st : option nat), run ROps s C b x e k = Ok (x', st) ->
  length x' = cm A /\ match st with
    | Some _ => residual_norm A b x' < Rabs e
    | None => (k = O -> x' = x) /\ (k <> O -> Rabs e <= residual_norm A b x') end.
Proof. exact stops_residual. Qed.
Print Assumptions C10_stopping_is_about_the_true_residual.
(** the hypothesis run = Ok is met: see C11_solvers_finish with the example there *)

(** *** C11: no division by zero *)
Theorem C11_solvers_finish : forall (A : coo R) (C : csr R) (b x : list R), ready 0 A C -> length b = cm A -> length x = cm A -> spd A ->
  forall (s : solver R) (e : R) (k : nat), usable s A C -> e <> 0 -> (s = JacobiCG -> 0 < residual_norm A b x) ->
  exists x' st, run ROps s C b x e k = Ok (x', st) /\ (s <> CG -> st = None -> (S k <= cm A)%nat).
Proof. exact all_finish. Qed.
Print Assumptions C11_solvers_finish.
Theorem C11_jacobi_divides_by_zero_at_the_solution : forall (A : coo R) (C : csr R) (b x : list R), ready 0 A C -> length b = cm A -> length x = cm A -> spd A ->
  forall (e : R) (k : nat), k <> O -> residual_norm A b x = 0 -> is_nonfin (run ROps JacobiCG C b x e k).
Proof. exact jacobi_exact_start. Qed.
Print Assumptions C11_jacobi_divides_by_zero_at_the_solution.
Example C11_example : ready 0 exM exC /\ spd exM /\ usable CG exM exC /\ usable JacobiCG exM exC /\ usable (SsorCG 1) exM exC /\
  0 < residual_norm exM [1; 2; 3] [0; 0; 0].
Proof.
  split; [apply exM_ready|]. split; [apply exM_spd|]. split; [exact I|]. split; [exact I|]. split; [split; [lra|discriminate]|].
  unfold residual_norm. apply sqrt_lt_R0. unfold row. unfold vget. cbn [exM exA cm sumn nth]. rewrite !Rmult_0_r. lra.
Qed.
(** system 1 x = 0 started at its solution 0 *)
Definition ex1 {V} (a : V) : coo V := mkCoo [(key 0 0, a)] 1.
Definition ex1C {V} (a : V) : csr V := mkCsr [0%nat; 0%nat] [] [] [a] 0 1.
Example ex1_ready : forall V (v a : V), ready v (ex1 a) (ex1C a).
Proof.
  intros V v a. split; [split|split; [split; reflexivity|split; [|reflexivity]]].
  - repeat constructor. intros [].
  - intros k w [E|[]]. inversion E; subst. exists 0%nat, 0%nat. cbn. auto.
  - intros i Hi. cbn in Hi. assert (i = 0)%nat by lia. subst. left; reflexivity.
Qed.
Example ex1_spd : spd (ex1 1).
Proof.
  intros x [i [Hi N]]. cbn in Hi. assert (i = 0)%nat by lia. subst i. unfold quad. cbn [ex1 cm sumn].
  change (value 0 (ex1 1) 0 0) with 1. assert (0 < x 0%nat * x 0%nat) by (apply Rsqr_pos_lt; auto). lra.
Qed.
Theorem C11_solvers_finish_refuted : exists (A : coo R) (C : csr R) (b x : list R) (e : R) (k : nat),
  ready 0 A C /\ spd A /\ length b = cm A /\ length x = cm A /\ 0 < e /\ is_nonfin (run ROps JacobiCG C b x e k).
Proof.
  exists (ex1 1), (ex1C 1), [0], [0], 1, 1%nat. split; [apply ex1_ready|]. split; [apply ex1_spd|]. split; auto. split; auto. split; [lra|].
  apply (C11_jacobi_divides_by_zero_at_the_solution (ex1 1)); auto; [apply ex1_ready|apply ex1_spd|].
  unfold residual_norm, row. cbn [ex1 cm sumn]. change (value 0 (ex1 1) 0 0) with 1. unfold vget. cbn [nth].
  replace (0 + _) with 0 by ring. apply sqrt_0.
Qed.
Print Assumptions C11_solvers_finish_refuted.
(** the same run in binary64 leaves NaN in the solution vector *)
Example C11_jacobi_nan : exists st, run FOps JacobiCG (ex1C (one FOps)) [zero FOps] [zero FOps] (eps9 FOps) 1 = Ok ([SpecFloat.S754_nan], st).
Proof. eexists. vm_compute. reflexivity. Qed.

(** *** C12: more iterations strictly decrease the energy of the error *)
Theorem C12_energy_decreases : forall (A : coo R) (C : csr R) (b x : list R), ready 0 A C -> length b = cm A -> length x = cm A -> spd A ->
  forall (s : solver R) (e : R) (k : nat) (x1 xs : list R), usable s A C -> e <> 0 -> 0 < residual_norm A b x -> is_solution A b xs ->
  run ROps s C b x e k = Ok (x1, None) ->
  exists x2 st, run ROps s C b x e (S k) = Ok (x2, st) /\ energy_error A x2 xs < energy_error A x1 xs.
Proof. exact energy_decreases. Qed.
Print Assumptions C12_energy_decreases.
Theorem C12_limit_beyond_the_stop_changes_nothing : forall (A : coo R) (C : csr R) (b x : list R), ready 0 A C -> length b = cm A -> length x = cm A -> spd A ->
  forall (s : solver R) (e : R) (k : nat) (x1 : list R) (i : nat), usable s A C -> run ROps s C b x e k = Ok (x1, Some i) ->
  forall k', (k <= k')%nat -> run ROps s C b x e k' = Ok (x1, Some i).
Proof. exact more_limit. Qed.
Print Assumptions C12_limit_beyond_the_stop_changes_nothing.
(** the solution of the example system, and a run that has not stopped: zero iterations *)
Example C12_example : is_solution exM [0; 0; 4] [1; 2; 3] /\ run ROps CG exC [0; 0; 4] [0; 0; 0] 1 0 = Ok ([0; 0; 0], None).
Proof.
  split.
  - intros i Hi. unfold row. cbn in Hi. cbn [exM exA cm sumn]. unfold vget.
    destruct i as [|[|[|i]]]; [| | |lia]; unfold value, find_key, exM, exA; cbn [elems]; cbv [key Nat.min Nat.max N.eqb N.of_nat Pos.of_succ_nat N.shiftl N.lor Pos.eqb Pos.succ Pos.shiftl Pos.iter Pos.lor nth]; ring.
  - reflexivity.
Qed.

(** *** C13: the incomplete Cholesky preconditioner *)
Theorem C13_pattern_kept : forall (o : Ops) (A : coo (T o)) (C : csr (T o)), scalar_ops_total o -> ready (zero o) A C ->
  ~ is_ub (ic_decomposition o C) /\ ~ is_throw (ic_decomposition o C) /\
  forall L, ic_decomposition o C = Ok L -> pattern_of C L.
Proof. exact ic_in_bounds. Qed.
Print Assumptions C13_pattern_kept.
Theorem C13_preconditioner_symmetric_positive : forall (A : coo R) (C L : csr R), ready 0 A C -> ic_decomposition ROps C = Ok L ->
  forall t u r, length t = cm A -> length u = cm A -> length r = cm A ->
  exists t' z, ic_apply ROps L t u r = Ok (t', z) /\ length z = cm A /\
    (forall r' t'' z', length r' = cm A -> ic_apply ROps L t u r' = Ok (t'', z') -> dotR r z' = dotR r' z) /\
    ((exists i, (i < cm A)%nat /\ vget r i <> 0) -> 0 < dotR r z).
Proof. exact ic_preconditioner. Qed.
Print Assumptions C13_preconditioner_symmetric_positive.

(** symbolic execution on small matrices whose pivots are 1 *)
Lemma sqrt_is_1 : forall x, x = 1 -> Rsqrtr x = Ok 1.
Proof. intros x ->. rewrite Rsqrtr_ok by lra. rewrite sqrt_1. auto. Qed.
Lemma div_by_1 : forall x y z, y = 1 -> x = z -> Rdivr x y = Ok z.
Proof. intros x y z -> ->. rewrite Rdivr_ok by lra. f_equal. field. Qed.
Lemma sqrt_neg : forall x, x < 0 -> is_nonfin (Rsqrtr x).
Proof. intros x H. unfold Rsqrtr. destruct (Rlt_dec x 0); [eexists; reflexivity|contradiction]. Qed.
Ltac rstep := cbv -[Rplus Rmult Rminus Ropp Rdivr Rsqrtr IZR Reqb Rltb is_nonfin].
Ltac rsq := match goal with |- context [Rsqrtr ?x] => rewrite (sqrt_is_1 x) by lra end; rstep.
Ltac rdiv z := match goal with |- context [Rdivr ?x ?y] => rewrite (div_by_1 x y z) by lra end; rstep.

(** [[1,1,0,1],[1,2,1,0],[0,1,2,-2],[1,0,-2,4]] *)
Definition exB {V} (f : Z -> V) : coo V := mkCoo [(key 0 0, f 1%Z); (key 0 1, f 1%Z); (key 0 3, f 1%Z); (key 1 1, f 2%Z);
  (key 1 2, f 1%Z); (key 2 2, f 2%Z); (key 2 3, f (-2)%Z); (key 3 3, f 4%Z)] 4.
Definition exBC {V} (f : Z -> V) : csr V := mkCsr [0; 2; 3; 4; 4]%nat [1; 3; 2; 3]%nat [f 1; f 1; f 1; f (-2)]%Z [f 1; f 2; f 2; f 4]%Z 4 4.
Example exB_ready : forall V (v : V) (f : Z -> V), ready v (exB f) (exBC f).
Proof.
  intros V v f. split; [split|split; [split; reflexivity|split; [|reflexivity]]].
  - cbn [exB elems map fst]. repeat constructor; vm_compute; intuition discriminate.
  - intros k w I. cbn [exB elems] in I.
    repeat (destruct I as [I|I]; [inversion I; subst; match goal with |- exists i j, _ /\ _ /\ key ?a ?c = _ => exists a, c; split; [lia|split; [cbn; lia|reflexivity]] end|]).
    destruct I.
  - intros i Hi. unfold touched. cbn [exB elems map fst cm] in *. destruct i as [|[|[|[|i]]]]; cbn [In]; auto 12; lia.
Qed.
Example exB_spd : spd (exB IZR).
Proof.
  intros x [i [Hi N]]. unfold quad. cbn [exB cm sumn] in *.
  unfold value, find_key, exB; cbn [elems]; cbv [key Nat.min Nat.max N.eqb N.of_nat Pos.of_succ_nat N.shiftl N.lor Pos.eqb Pos.succ Pos.shiftl Pos.iter Pos.lor].
  set (x0 := x 0%nat) in *. set (x1 := x 1%nat) in *. set (x2 := x 2%nat) in *. set (x3 := x 3%nat) in *.
  match goal with |- 0 < ?e => replace e with ((x0 + x1 + x3) * (x0 + x1 + x3) + (x1 + x2 - x3) * (x1 + x2 - x3) + (x2 - x3) * (x2 - x3) + x3 * x3) by ring end.
  assert (Q : forall a, 0 <= a * a) by (intros; apply Rle_0_sqr).
  assert (P : forall a, a <> 0 -> 0 < a * a) by (intros; apply Rsqr_pos_lt; auto).
  pose proof (Q (x0 + x1 + x3)). pose proof (Q (x1 + x2 - x3)). pose proof (Q (x2 - x3)). pose proof (Q x3).
  destruct (Req_dec x3 0) as [Z3|Z3]; [|pose proof (P _ Z3); lra].
  destruct (Req_dec (x2 - x3) 0) as [Z2|Z2]; [|pose proof (P _ Z2); lra].
  destruct (Req_dec (x1 + x2 - x3) 0) as [Z1|Z1]; [|pose proof (P _ Z1); lra].
  destruct (Req_dec (x0 + x1 + x3) 0) as [Z0|Z0]; [|pose proof (P _ Z0); lra].
  exfalso. apply N. destruct i as [|[|[|[|i]]]]; [| | | |lia]; fold x0 x1 x2 x3; lra.
Qed.
Theorem C13_spd_factorisation_completes_refuted : exists (A : coo R) (C : csr R), ready 0 A C /\ spd A /\ is_nonfin (ic_decomposition ROps C).
Proof.
  exists (exB IZR), (exBC IZR). split; [apply exB_ready|]. split; [apply exB_spd|].
  rstep. rsq. rdiv 1. rdiv 1. rsq. rdiv 1. rsq. rdiv (-2).
  match goal with |- context [Rsqrtr ?x] => destruct (sqrt_neg x) as [s E]; [lra|rewrite E] end. eexists; reflexivity.
Qed.
Print Assumptions C13_spd_factorisation_completes_refuted.
(** the same matrix in binary64: the solver returns NaN in every component *)
Theorem C13_binary64_solution_nan_refuted : exists st,
  run FOps CholeskyCG (exBC (ofZ FOps)) [one FOps; zero FOps; zero FOps; zero FOps] (zeros FOps 4) (eps9 FOps) 20
    = Ok ([SpecFloat.S754_nan; SpecFloat.S754_nan; SpecFloat.S754_nan; SpecFloat.S754_nan], st).
Proof. eexists. vm_compute. reflexivity. Qed.
Print Assumptions C13_binary64_solution_nan_refuted.
(** a matrix on which the Cholesky solver is usable: its factor exists and the step bound holds *)
Example C13_example : ic_decomposition ROps (ex1C 1) = Ok (ex1C 1) /\ usable CholeskyCG (ex1 1) (ex1C 1).
Proof.
  assert (E : ic_decomposition ROps (ex1C 1) = Ok (ex1C 1)) by (rstep; rsq; rdiv 1; reflexivity).
  split; [exact E|]. exists (ex1C 1). split; [exact E|]. intros t u r z t' Lt Lu Lr EA.
  destruct t as [|t0 [|]]; try discriminate. destruct u as [|u0 [|]]; try discriminate. destruct r as [|q [|]]; try discriminate.
  assert (Z : z = [1 * (1 * q)]) by (revert EA; rstep; intros EA; inversion EA; auto). subst z.
  unfold quad, dotR. cbn [ex1 cm sumn length]. change (value 0 (ex1 1) 0 0) with 1. unfold vget; cbn [nth].
  pose proof (Rle_0_sqr q) as Q. unfold Rsqr in Q.
  replace (0 + (0 + 1 * (1 * q) * 1 * (1 * (1 * q)))) with (q * q) by ring. replace (0 + q * (1 * (1 * q))) with (q * q) by ring. lra.
Qed.

(** *** C55: as many iterations as unknowns are enough *)
Theorem C55_finite_termination : forall (A : coo R) (C : csr R) (b x : list R), ready 0 A C -> length b = cm A -> length x = cm A -> spd A ->
  forall (s : solver R) (e : R) (k : nat), usable s A C -> s <> CG -> e <> 0 -> (s = JacobiCG -> 0 < residual_norm A b x) -> (cm A <= k)%nat ->
  exists x' i, run ROps s C b x e k = Ok (x', Some i) /\ residual_norm A b x' < Rabs e.
Proof. exact finite_stop. Qed.
Print Assumptions C55_finite_termination.
Theorem C55_plain_cg_finite_termination : forall (A : coo R) (C : csr R) (b x : list R), ready 0 A C -> length b = cm A -> length x = cm A -> spd A ->
  forall (lam e : R) (k : nat), 0 < lam -> (forall v, lam * sumn (cm A) (fun i => v i * v i) <= quad (cm A) (value 0 A) v) ->
  / 2 ^ 52 <= lam * (e * e) -> Rabs e <= residual_norm A b x -> (cm A <= k)%nat ->
  exists x' i, run ROps CG C b x e k = Ok (x', Some i) /\ residual_norm A b x' < Rabs e.
Proof. exact cg_finite. Qed.
Print Assumptions C55_plain_cg_finite_termination.
Example C55_example : 0 < 1 /\ (forall v, 1 * sumn (cm (ex1 1)) (fun i => v i * v i) <= quad (cm (ex1 1)) (value 0 (ex1 1)) v) /\
  / 2 ^ 52 <= 1 * ((1 / 1000) * (1 / 1000)) /\ Rabs (1 / 1000) <= residual_norm (ex1 1) [5] [0].
Proof.
  split; [lra|]. split; [|split].
  - intros v. unfold quad. cbn [ex1 cm sumn]. change (value 0 (ex1 1) 0 0) with 1. lra.
  - lra.
  - unfold residual_norm, row. cbn [ex1 cm sumn]. change (value 0 (ex1 1) 0 0) with 1. unfold vget. cbn [nth].
    replace (0 + _) with (5 * 5) by ring. rewrite sqrt_square by lra. rewrite Rabs_right; lra.
Qed.

(** *** C56: on a full pattern the Cholesky preconditioner is not always the inverse *)
Definition full_pattern {V} (A : coo V) : Prop := forall i j, (i <= j)%nat -> (j < cm A)%nat -> touched A i j.
(** [[1,1,1],[1,2,2],[1,2,3]], whose inverse factor has a zero above the diagonal *)
Definition exF : coo R := mkCoo [(key 0 0, 1); (key 0 1, 1); (key 0 2, 1); (key 1 1, 2); (key 1 2, 2); (key 2 2, 3)] 3.
Definition exFC : csr R := mkCsr [0; 2; 3; 3]%nat [1; 2; 2]%nat [1; 1; 2] [1; 2; 3] 3 3.
Example exF_ready : ready 0 exF exFC.
Proof.
  split; [split|split; [split; reflexivity|split; [|reflexivity]]].
  - cbn [exF elems map fst]. repeat constructor; vm_compute; intuition discriminate.
  - intros k w I. cbn [exF elems] in I.
    repeat (destruct I as [I|I]; [inversion I; subst; match goal with |- exists i j, _ /\ _ /\ key ?a ?c = _ => exists a, c; split; [lia|split; [cbn; lia|reflexivity]] end|]).
    destruct I.
  - intros i Hi. unfold touched. cbn [exF elems map fst cm] in *. destruct i as [|[|[|i]]]; cbn [In]; auto 12; lia.
Qed.
Example exF_spd : spd exF.
Proof.
  intros x [i [Hi N]]. unfold quad. cbn [exF cm sumn] in *.
  unfold value, find_key, exF; cbn [elems]; cbv [key Nat.min Nat.max N.eqb N.of_nat Pos.of_succ_nat N.shiftl N.lor Pos.eqb Pos.succ Pos.shiftl Pos.iter Pos.lor].
  set (x0 := x 0%nat) in *. set (x1 := x 1%nat) in *. set (x2 := x 2%nat) in *.
  match goal with |- 0 < ?e => replace e with ((x0 + x1 + x2) * (x0 + x1 + x2) + (x1 + x2) * (x1 + x2) + x2 * x2) by ring end.
  assert (Q : forall a, 0 <= a * a) by (intros; apply Rle_0_sqr).
  assert (P : forall a, a <> 0 -> 0 < a * a) by (intros; apply Rsqr_pos_lt; auto).
  pose proof (Q (x0 + x1 + x2)). pose proof (Q (x1 + x2)). pose proof (Q x2).
  destruct (Req_dec x2 0) as [Z2|Z2]; [|pose proof (P _ Z2); lra].
  destruct (Req_dec (x1 + x2) 0) as [Z1|Z1]; [|pose proof (P _ Z1); lra].
  destruct (Req_dec (x0 + x1 + x2) 0) as [Z0|Z0]; [|pose proof (P _ Z0); lra].
  exfalso. apply N. destruct i as [|[|[|i]]]; [| | |lia]; fold x0 x1 x2; lra.
Qed.
Theorem C56_full_pattern_inverse_refuted : exists (A : coo R) (C L : csr R) (r t z : list R),
  ready 0 A C /\ spd A /\ full_pattern A /\ ic_decomposition ROps C = Ok L /\
  length r = cm A /\ ic_apply ROps L (zeros ROps 3) (zeros ROps 3) r = Ok (t, z) /\ ~ is_solution A r z.
Proof.
  assert (E : exists a b c : R, a = -1 /\ b = 1 /\ c = -1 /\ ic_decomposition ROps exFC = Ok (mkCsr [0; 2; 3; 3]%nat [1; 2; 2]%nat [a; b; c] [1; 1; 1] 3 3)).
  { rstep. rsq. rdiv 1. rdiv 1. rsq. rdiv 1. rsq. rdiv 1. rdiv 1.
    match goal with |- context [Reqb ?x ?y] => replace (Reqb x y) with false by (symmetry; apply Reqb_false; lra) end. rstep.
    rdiv 1.
    match goal with |- context [Reqb ?x ?y] => replace (Reqb x y) with true by (symmetry; apply Reqb_true; lra) end. rstep.
    match goal with |- context [Reqb ?x ?y] => replace (Reqb x y) with false by (symmetry; apply Reqb_false; lra) end. rstep.
    do 3 eexists. split; [|split; [|split; [|reflexivity]]]; lra. }
  destruct E as [a [b [c [Ha [Hb [Hc E]]]]]].
  exists exF, exFC. eexists. exists [0; 0; 1]. do 2 eexists. split; [apply exF_ready|]. split; [apply exF_spd|].
  split; [|split; [exact E|split; [reflexivity|split; [rstep; reflexivity|]]]].
  - intros i j Hij Hj. unfold touched. cbn [exF elems map fst cm] in *. destruct i as [|[|[|i]]], j as [|[|[|j]]]; try lia; cbn [In]; auto 12.
  - intros S. specialize (S 0%nat ltac:(vm_compute; auto)). revert S. unfold row. cbn [exF cm sumn]. unfold vget. cbn [nth].
    unfold value, find_key, exF; cbn [elems]; cbv [key Nat.min Nat.max N.eqb N.of_nat Pos.of_succ_nat N.shiftl N.lor Pos.eqb Pos.succ Pos.shiftl Pos.iter Pos.lor].
    rewrite Ha, Hb, Hc. intros S. revert S. match goal with |- ?l = ?r -> False => replace l with 1 by ring end. lra.
Qed.
Print Assumptions C56_full_pattern_inverse_refuted.
