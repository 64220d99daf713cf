(** Properties C01-C07 and C14-C18.  Each theorem is closed by a lemma of the proof files; the vocabulary is in
    AlgebraSpec.v, the model in AlgebraModel.v.  Examples show that the hypotheses are satisfiable. *)
From Coq Require Import String.
From Coq Require Import List Arith ZArith NArith Bool Lia Reals Lra Permutation.
From Verif Require Import Base SumR AlgebraModel AlgebraSpec Coo_proofs Algebra_bridge Vec_proofs NonLinear_proofs.
Import ListNotations.

(** *** C01: the COO matrix is a map on upper-triangular positions *)
Theorem C01_coo_is_a_map : forall (V : Type) (v0 : V) (size : nat) (ops : list (cop V)) (A : coo V) (outs : list (cout V)),
  Forall op_u32 ops -> crun v0 (coo_new V size) ops A outs ->
  outs = spec_run (fun _ _ => v0) ops /\ cm A = size.
Proof. exact (@coo_history). Qed.
Print Assumptions C01_coo_is_a_map.
Theorem C01_coo_never_stuck : forall (V : Type) (v0 : V) (ops : list (cop V)) (size : nat),
  Forall op_u32 ops -> exists A outs, crun v0 (coo_new V size) ops A outs.
Proof. exact (@coo_history_total). Qed.
Print Assumptions C01_coo_never_stuck.
Theorem C01_reachable_is_valid : forall (V : Type) (v0 : V) (ops : list (cop V)) (n : nat) (A : coo V) (outs : list (cout V)),
  Forall (op_in n) ops -> crun v0 (coo_new V n) ops A outs -> valid_coo A /\ cm A = n.
Proof. exact (@reachable_valid). Qed.
Print Assumptions C01_reachable_is_valid.
(** a history with a repeated position, a never written position and a rejected access *)
Definition ex_ops : list (cop nat) := [CWrite 0 1 5; CWrite 0 1 7; CRead 0 1; CRead 1 1; CWrite 1 0 9; CRead 0 1].
Example C01_example : Forall op_u32 ex_ops /\ Forall (op_in 2) ex_ops /\
  spec_run (fun _ _ => 0) ex_ops = [ODone; ODone; OVal 7; OVal 0; OThrown; OVal 7].
Proof. repeat split; try (repeat constructor). Qed.

(** *** C02: conversion to CSR is lossless and independent of the hash order *)
Theorem C02_csr_lossless : forall (V : Type) (v0 : V) (A : coo V), valid_coo A -> fits A -> all_diag_touched A ->
  exists C, csr_build v0 A = Ok C /\ m C = cm A /\ nnz C = offdiag_count A /\
    forall i j, i < cm A -> j < cm A -> csr_at v0 C i j = Ok (value v0 A i j).
Proof. exact (@lossless). Qed.
Print Assumptions C02_csr_lossless.
Theorem C02_csr_order_independent : forall (V : Type) (v0 : V) (A1 A2 : coo V),
  valid_coo A1 -> Permutation (elems A1) (elems A2) -> cm A1 = cm A2 -> csr_build v0 A1 = csr_build v0 A2.
Proof. exact (@order_free). Qed.
Print Assumptions C02_csr_order_independent.
(** [[2,-1,0],[-1,2,-1],[0,-1,2]] *)
Definition exA {V} (a b : V) : coo V := mkCoo [(key 0 1, b); (key 1 1, a); (key 0 0, a); (key 1 2, b); (key 2 2, a)] 3.
Example exA_valid : forall V (a b : V), valid_coo (exA a b) /\ fits (exA a b) /\ all_diag_touched (exA a b).
Proof.
  intros V a b. split; [split|split; [split|]].
  - cbn [exA elems map fst]. repeat constructor; vm_compute; intuition discriminate.
  - intros k v I. cbn in I.
    destruct I as [I|[I|[I|[I|[I|[]]]]]]; inversion I; subst;
      [exists 0, 1|exists 1, 1|exists 0, 0|exists 1, 2|exists 2, 2]; repeat split; cbn; lia.
  - vm_compute; reflexivity.
  - vm_compute; reflexivity.
  - intros i Hi. unfold touched. cbn [exA elems map fst cm] in *. destruct i as [|[|[|i]]]; cbn [In]; auto 10; lia.
Qed.

(** *** C03: conversion is in bounds exactly when the diagonal is complete or there are fewer entries than rows *)
Theorem C03_csr_trichotomy : forall (V : Type) (v0 : V) (A : coo V), valid_coo A -> fits A ->
  (all_diag_touched A /\ exists C, csr_build v0 A = Ok C /\ nnz C = offdiag_count A) \/
  (~ all_diag_touched A /\ cm A <= length (elems A) /\ is_ub (csr_build v0 A)) \/
  (length (elems A) < cm A /\ exists C, csr_build v0 A = Ok C /\
     (Z.of_nat (nnz C) = 2 ^ 32 - (Z.of_nat (cm A) - Z.of_nat (length (elems A))))%Z).
Proof. exact (@trichotomy). Qed.
Print Assumptions C03_csr_trichotomy.
Definition ex_missing : coo nat := mkCoo [(key 0 0, 4); (key 0 1, 3)] 2.
Theorem C03_csr_in_bounds_refuted : exists A : coo nat, valid_coo A /\ fits A /\ is_ub (csr_build 0 A).
Proof.
  exists ex_missing. split; [split|split; [split|]].
  - cbn. repeat constructor; vm_compute; intuition discriminate.
  - intros k v I. cbn in I. destruct I as [I|[I|[]]]; inversion I; subst; [exists 0, 0|exists 0, 1]; repeat split; cbn; lia.
  - vm_compute; reflexivity.
  - vm_compute; reflexivity.
  - eexists; vm_compute; reflexivity.
Qed.
Print Assumptions C03_csr_in_bounds_refuted.

Local Open Scope R_scope.

(** *** C04: the symmetric sparse product is the dense product *)
Theorem C04_symmetric_product : forall (A : coo R) (r x : list R), valid_coo A -> fits A -> all_diag_touched A ->
  length r = cm A -> length x = cm A ->
  exists (C : csr R) (y : list R), csr_build 0 A = Ok C /\ mult_sym ROps r C x = Ok y /\ length y = cm A /\
    forall i, (i < cm A)%nat -> vget y i = sumn (cm A) (fun j => value 0 A i j * vget x j).
Proof. exact sym_product. Qed.
Print Assumptions C04_symmetric_product.
Example C04_example : valid_coo (exA 2 (-1)) /\ fits (exA 2 (-1)) /\ all_diag_touched (exA 2 (-1)) /\ cm (exA 2 (-1)) = length [1; 2; 3].
Proof. destruct (exA_valid R 2 (-1)) as [A [B C]]. auto. Qed.

(** *** C05: the triangular products *)
Theorem C05_triangular_products : forall (A : coo R) (r x : list R), valid_coo A -> fits A -> all_diag_touched A ->
  length r = cm A -> length x = cm A ->
  exists (C : csr R) (u l : list R), csr_build 0 A = Ok C /\
    mult_upper ROps r C x = Ok u /\ mult_lower ROps r C x = Ok l /\ length u = cm A /\ length l = cm A /\
    (forall i, (i < cm A)%nat -> vget u i = sumn (cm A) (fun j => if Nat.leb i j then value 0 A i j * vget x j else 0)) /\
    (forall i, (i < cm A)%nat -> vget l i = sumn (cm A) (fun j => if Nat.leb j i then value 0 A i j * vget x j else 0)).
Proof. exact tri_products. Qed.
Print Assumptions C05_triangular_products.
Theorem C05_adjoint : forall (A : coo R) (C : csr R) (r x z u l : list R), valid_coo A -> fits A -> all_diag_touched A ->
  length r = cm A -> length x = cm A -> length z = cm A -> csr_build 0 A = Ok C ->
  mult_upper ROps r C x = Ok u -> mult_lower ROps r C z = Ok l -> dotR u z = dotR x l.
Proof. exact tri_adjoint. Qed.
Print Assumptions C05_adjoint.
Theorem C05_sum : forall (A : coo R) (C : csr R) (r x y u l : list R), valid_coo A -> fits A -> all_diag_touched A ->
  length r = cm A -> length x = cm A -> csr_build 0 A = Ok C -> mult_sym ROps r C x = Ok y ->
  mult_upper ROps r C x = Ok u -> mult_lower ROps r C x = Ok l ->
  forall i, (i < cm A)%nat -> vget y i = vget l i + vget u i - value 0 A i i * vget x i.
Proof. exact tri_sum. Qed.
Print Assumptions C05_sum.
Example C05_example : exists (C : csr R) (y u l : list R), csr_build 0 (exA 2 (-1)) = Ok C /\
  mult_sym ROps [0; 0; 0] C [1; 2; 3] = Ok y /\ mult_upper ROps [0; 0; 0] C [1; 2; 3] = Ok u /\ mult_lower ROps [0; 0; 0] C [1; 2; 3] = Ok l.
Proof.
  destruct (exA_valid R 2 (-1)) as [A [B D]].
  destruct (tri_products (exA 2 (-1)) [0; 0; 0] [1; 2; 3] A B D eq_refl eq_refl) as [C [u [l [E [Eu [El _]]]]]].
  destruct (sym_product (exA 2 (-1)) [0; 0; 0] [1; 2; 3] A B D eq_refl eq_refl) as [C2 [y [E2 [Ey _]]]].
  rewrite E in E2; inversion E2; subst C2. exists C, y, u, l. auto.
Qed.

(** *** C06: the vector kernels are alias-safe, for every scalar type (exact or floating point) *)
Theorem C06_kernels_alias_safe : forall (o : Ops) (st : store o) (r a b : nat) (d : T o),
  (length (st a) <= length (st b))%nat -> (length (st a) <= length (st r))%nat ->
  (exists st', v_add o st r a b = Ok st' /\ pointwise2 o st st' r a b (add o)) /\
  (exists st', v_sub o st r a b = Ok st' /\ pointwise2 o st st' r a b (sub o)) /\
  (exists st', v_mult o st r a b = Ok st' /\ pointwise2 o st st' r a b (mul o)) /\
  (exists st', v_addScaled o st r a d b = Ok st' /\ pointwise2 o st st' r a b (fun x y => add o x (mul o d y))) /\
  (exists st', v_scale o st r d a = Ok st' /\ pointwise1 o st st' r a (mul o d)) /\
  (exists st', v_adds o st r a d = Ok st' /\ pointwise1 o st st' r a (fun x => add o x d)) /\
  (exists st', v_subs o st r a d = Ok st' /\ pointwise1 o st st' r a (fun x => sub o x d)) /\
  (exists st', v_copy o st r a = Ok st' /\ pointwise1 o st st' r a (fun x => x)).
Proof. exact kernels_ok. Qed.
Print Assumptions C06_kernels_alias_safe.
Theorem C06_division_alias_safe : forall (o : Ops) (st : store o) (r a b : nat) (d : T o) (g : T o -> T o -> T o),
  (length (st a) <= length (st b))%nat -> (length (st a) <= length (st r))%nat ->
  ((forall i x y, nth_error (st a) i = Some x -> nth_error (st b) i = Some y -> div o x y = Ok (g x y)) ->
    exists st', v_div o st r a b = Ok st' /\ pointwise2 o st st' r a b g) /\
  ((forall i x, nth_error (st a) i = Some x -> div o x d = Ok (g x d)) ->
    exists st', v_divs o st r a d = Ok st' /\ pointwise1 o st st' r a (fun x => g x d)).
Proof. exact kernels_div_ok. Qed.
Print Assumptions C06_division_alias_safe.
Theorem C06_short_operands_are_undefined : forall (o : Ops) (st : store o) (r a b : nat) (d : T o),
  (length (st b) < length (st a))%nat \/ (length (st r) < length (st a))%nat ->
  is_ub (v_add o st r a b) /\ is_ub (v_sub o st r a b) /\ is_ub (v_mult o st r a b) /\ is_ub (v_addScaled o st r a d b).
Proof. exact kernels_ub. Qed.
Print Assumptions C06_short_operands_are_undefined.
Theorem C06_short_result_is_undefined : forall (o : Ops) (st : store o) (r a : nat) (d : T o), (length (st r) < length (st a))%nat ->
  is_ub (v_scale o st r d a) /\ is_ub (v_adds o st r a d) /\ is_ub (v_subs o st r a d) /\ is_ub (v_copy o st r a).
Proof. exact kernels1_ub. Qed.
Print Assumptions C06_short_result_is_undefined.
(** x = x + x on the same object *)
Example C06_example : let st : store ROps := fun _ => [1; 2] in (length (st 0%nat) <= length (st 0%nat))%nat /\
  exists st', v_add ROps st 0 0 0 = Ok st' /\ st' 0%nat = [1 + 1; 2 + 2].
Proof. split; [auto|]. eexists; split; reflexivity. Qed.

(** *** C07: inner products *)
Theorem C07_dot_is_the_inner_product : forall a b : list R, (length a <= length b)%nat -> dot ROps a b = Ok (dotR a b).
Proof. exact dot_ok. Qed.
Print Assumptions C07_dot_is_the_inner_product.
Theorem C07_squareSum_and_norm : forall a : list R, squareSum ROps a = Ok (dotR a a) /\ norm ROps a = Ok (sqrt (dotR a a)).
Proof. intros a. exact (conj (squareSum_ok a) (norm_ok a)). Qed.
Print Assumptions C07_squareSum_and_norm.
Theorem C07_dot_symmetric : forall a b : list R, length a = length b -> dotR a b = dotR b a.
Proof. exact dotR_sym. Qed.
Theorem C07_dot_linear : forall (a b c : list R) (t : R), length b = length a -> length c = length a ->
  forall d, length d = length a -> (forall i, (i < length a)%nat -> vget d i = vget b i + t * vget c i) ->
  dotR a d = dotR a b + t * dotR a c.
Proof. exact dotR_lin_r. Qed.
Print Assumptions C07_dot_linear.
Theorem C07_squareSum_definite : forall a : list R, 0 <= dotR a a /\ (dotR a a = 0 -> forall i, (i < length a)%nat -> vget a i = 0).
Proof. intros a. exact (conj (dotR_nonneg a) (dotR_zero a)). Qed.
Print Assumptions C07_squareSum_definite.
Theorem C07_cauchy_schwarz : forall a b : list R, length a = length b -> Rabs (dotR a b) <= sqrt (dotR a a) * sqrt (dotR b b).
Proof. exact cauchy_schwarz. Qed.
Print Assumptions C07_cauchy_schwarz.
Theorem C07_triangle : forall a b c : list R, length a = length b -> length c = length a ->
  (forall i, (i < length a)%nat -> vget c i = vget a i + vget b i) ->
  sqrt (dotR c c) <= sqrt (dotR a a) + sqrt (dotR b b).
Proof. exact norm_triangle. Qed.
Print Assumptions C07_triangle.
Theorem C07_norm_scales : forall (a : R) (x z : list R), length z = length x ->
  (forall i, (i < length x)%nat -> vget z i = a * vget x i) -> sqrt (dotR z z) = Rabs a * sqrt (dotR x x).
Proof. exact norm_scal. Qed.
Print Assumptions C07_norm_scales.
Example C07_example : dotR [1; 2] [3; 4] = 11 /\ (length [1; 2] <= length [3; 4])%nat.
Proof. split; [unfold dotR, vget; cbn; ring|auto]. Qed.

(** *** C14: a Dirichlet condition keeps exactly the right solutions *)
Theorem C14_dirichlet_solutions : forall (S : rsys) (id : nat) (v : R), valid_system S -> (id < sdim S)%nat ->
  exists S', dDirichlet ROps S id v = Ok S' /\ valid_system S' /\ sdim S' = sdim S /\
    forall x, solves S' x <-> (x id = v /\ forall i, (i < sdim S)%nat -> i <> id -> row_eq S x i).
Proof. exact dirichlet_solutions_v. Qed.
Print Assumptions C14_dirichlet_solutions.
Theorem C14_many_dirichlet_solutions : forall (S : rsys) (l : list (nat * R)), valid_system S -> NoDup (map fst l) ->
  (forall id v, In (id, v) l -> (id < sdim S)%nat) ->
  exists S', dirichlet_all S l = Ok S' /\ sdim S' = sdim S /\
    forall x, solves S' x <-> ((forall id v, In (id, v) l -> x id = v) /\
                               forall i, (i < sdim S)%nat -> ~ In i (map fst l) -> row_eq S x i).
Proof. exact dirichlet_all_v. Qed.
Print Assumptions C14_many_dirichlet_solutions.
Theorem C14_dirichlet_posdef : forall (S S' : rsys) (id : nat) (v : R), valid_system S -> (id < sdim S)%nat ->
  dDirichlet ROps S id v = Ok S' -> posdef (sdim S) (value 0 (sA R S)) -> posdef (sdim S') (value 0 (sA R S')).
Proof. exact dirichlet_posdef_v. Qed.
Print Assumptions C14_dirichlet_posdef.
Theorem C14_dirichlet_out_of_range : forall (o : Ops) (S : dsystem o) (id : nat) (v : T o),
  valid_system S -> (length (sb _ S) <= id)%nat -> is_u32 id -> is_ub (dDirichlet o S id v).
Proof. exact dirichlet_oob_v. Qed.
Print Assumptions C14_dirichlet_out_of_range.
Definition exS : rsys := mkSys R (exA 2 (-1)) [1; 2; 3].
Example exS_valid : valid_system exS /\ (1 < sdim exS)%nat /\ posdef (sdim exS) (value 0 (sA R exS)).
Proof.
  split; [split; [apply (exA_valid R 2 (-1))|split; [reflexivity|vm_compute; reflexivity]]|].
  split; [vm_compute; auto|]. intros x [i [Hi Nz]].
  assert (Q : quad (sdim exS) (value 0 (sA R exS)) x = x 0%nat * x 0%nat + (x 0%nat - x 1%nat) * (x 0%nat - x 1%nat) + (x 1%nat - x 2%nat) * (x 1%nat - x 2%nat) + x 2%nat * x 2%nat).
  { unfold quad, exS, sdim, value. cbn [sA sb length sumn Nat.min Nat.max exA elems find_key key]. cbn -[Rplus Rmult Rminus IZR]. ring. }
  rewrite Q.
  destruct (Rlt_dec 0 (x 0%nat * x 0%nat + (x 0%nat - x 1%nat) * (x 0%nat - x 1%nat) + (x 1%nat - x 2%nat) * (x 1%nat - x 2%nat) + x 2%nat * x 2%nat)) as [P|P]; auto.
  exfalso. apply Nz.
  pose proof (Rle_0_sqr (x 0%nat)) as P0. pose proof (Rle_0_sqr (x 0%nat - x 1%nat)) as P1.
  pose proof (Rle_0_sqr (x 1%nat - x 2%nat)) as P2. pose proof (Rle_0_sqr (x 2%nat)) as P3. unfold Rsqr in *.
  assert (Z0 : x 0%nat = 0) by (apply Rsqr_0_uniq; unfold Rsqr; lra).
  assert (Z2 : x 2%nat = 0) by (apply Rsqr_0_uniq; unfold Rsqr; lra).
  assert (Z1 : x 0%nat - x 1%nat = 0) by (apply Rsqr_0_uniq; unfold Rsqr; lra).
  destruct i as [|[|[|i]]]; [lra|lra|lra|cbn in Hi; lia].
Qed.

(** *** C15: Dirichlet conditions commute, are idempotent, and do not depend on the hash order *)
Theorem C15_dirichlet_any_order : forall (S : rsys) (l1 l2 : list (nat * R)), valid_system S -> NoDup (map fst l1) ->
  (forall id v, In (id, v) l1 -> (id < sdim S)%nat) -> Permutation l1 l2 ->
  exists A B, dirichlet_all S l1 = Ok A /\ dirichlet_all S l2 = Ok B /\ same_system A B.
Proof. exact dirichlet_perm_v. Qed.
Print Assumptions C15_dirichlet_any_order.
Theorem C15_dirichlet_idempotent : forall (S : rsys) (id : nat) (v : R), valid_system S -> (id < sdim S)%nat ->
  exists S1 S2, dDirichlet ROps S id v = Ok S1 /\ dDirichlet ROps S1 id v = Ok S2 /\ same_system S2 S1.
Proof. exact dirichlet_idem_v. Qed.
Print Assumptions C15_dirichlet_idempotent.
Theorem C15_dirichlet_hash_order : forall (o : Ops) (A1 A2 : coo (T o)) (b : list (T o)) (id : nat) (v : T o),
  valid_system (mkSys (T o) A1 b) -> (id < length b)%nat -> Permutation (elems A1) (elems A2) -> cm A2 = cm A1 ->
  exists S1 S2, dDirichlet o (mkSys (T o) A1 b) id v = Ok S1 /\ dDirichlet o (mkSys (T o) A2 b) id v = Ok S2 /\ sys_equiv S1 S2.
Proof. exact dirichlet_hash_v. Qed.
Print Assumptions C15_dirichlet_hash_order.
Example C15_example : valid_system exS /\ NoDup (map fst [(0%nat, 5); (2%nat, 7)]) /\
  (forall id v, In (id, v) [(0%nat, 5); (2%nat, 7)] -> (id < sdim exS)%nat).
Proof.
  split; [apply exS_valid|]. split; [repeat constructor; cbn; intuition discriminate|].
  intros id v [I|[I|[]]]; inversion I; vm_compute; auto.
Qed.

(** *** C16: setting the same node twice.  The claim is false; the exact condition and meaning follow. *)
Theorem C16_reset_exact : forall (S : rsys) (id : nat) (v1 v2 : R), valid_system S -> (id < sdim S)%nat ->
  exists S2 S', (S1 <- dDirichlet ROps S id v1 ;; dDirichlet ROps S1 id v2) = Ok S2 /\
    dDirichlet ROps S id v2 = Ok S' /\
    (same_system S2 S' <-> (forall i, (i < sdim S)%nat -> i <> id -> value 0 (sA R S) i id * (v1 - v2) = 0)).
Proof. exact dirichlet_reset_v. Qed.
Print Assumptions C16_reset_exact.
(** the remaining unknowns are those of the problem with the OLD value *)
Theorem C16_reset_solutions : forall (S : rsys) (id : nat) (v1 v2 : R), valid_system S -> (id < sdim S)%nat ->
  exists S2, (S1 <- dDirichlet ROps S id v1 ;; dDirichlet ROps S1 id v2) = Ok S2 /\ sdim S2 = sdim S /\
    forall x, solves S2 x <-> (x id = v2 /\ forall i, (i < sdim S)%nat -> i <> id ->
        row_eq S (fun j => if Nat.eqb j id then v1 else x j) i).
Proof. exact dirichlet_reset_sol_v. Qed.
Print Assumptions C16_reset_solutions.
Theorem C16_last_value_wins_refuted : exists (S S2 S' : rsys) (id : nat) (v1 v2 : R), valid_system S /\ (id < sdim S)%nat /\
  (S1 <- dDirichlet ROps S id v1 ;; dDirichlet ROps S1 id v2) = Ok S2 /\ dDirichlet ROps S id v2 = Ok S' /\ ~ same_system S2 S'.
Proof.
  destruct exS_valid as [V [L _]]. destruct (dirichlet_reset_v exS 1 4 6 V L) as [S2 [S' [E1 [E2 I]]]].
  exists exS, S2, S', 1%nat, 4, 6. split; auto. split; auto. split; auto. split; auto. intros Q. rewrite I in Q.
  specialize (Q 0%nat ltac:(vm_compute; auto) ltac:(discriminate)).
  assert (W : value 0 (sA R exS) 0 1 = -1) by reflexivity. rewrite W in Q. lra.
Qed.
Print Assumptions C16_last_value_wins_refuted.

(** *** C17: non-linear expressions evaluate homomorphically *)
Theorem C17_expressions_homomorphic : forall (mu : list R) (l : list neop) (st st' : nst), neprog l st = Ok st' ->
  (forall i, ne_ok (st i) mu) -> Forall (fun op => Forall (mu_ok mu) (neop_idx op)) l ->
  forall i, ne_eval ROps (st' i) mu = Ok (neprog_mean mu l (fun i => ne_val (st i) mu) i).
Proof. exact neprog_ok. Qed.
Print Assumptions C17_expressions_homomorphic.
Theorem C17_no_self_alias_is_defined : forall (l : list neop) (st : nst), Forall no_self l -> exists st', neprog l st = Ok st'.
Proof. exact neprog_total. Qed.
Print Assumptions C17_no_self_alias_is_defined.
Theorem C17_bad_permeability : forall (e : rexpr) (mu : list R), ~ ne_ok e mu -> is_ub (ne_eval ROps e mu) \/ is_nonfin (ne_eval ROps e mu).
Proof. exact ne_eval_bad. Qed.
Print Assumptions C17_bad_permeability.
(** isLinear tells exactly whether the expression needs no permeability: it then evaluates to the same number for every list *)
Theorem C17_linear_iff : forall (o : Ops) (e : nexpr o), ne_isLinear o e = true <-> exists v, forall mu, ne_eval o e mu = Ok v.
Proof.
  intros o [c ts]. unfold ne_isLinear, ne_eval. cbn [terms constant]. split.
  - destruct ts; [|discriminate]. intros _. exists c. reflexivity.
  - intros [v H]. specialize (H []). destruct ts as [|[q i] ts]; [reflexivity|]. cbn in H. unfold get in H.
    destruct i; cbn in H; discriminate.
Qed.
Print Assumptions C17_linear_iff.
Example C17_linear_met : ne_isLinear ROps (ne_const ROps 3) = true /\ ne_isLinear ROps (ne_add_term ROps (ne_const ROps 3) (1, 0%nat)) = false.
Proof. split; reflexivity. Qed.
Theorem C17_self_addition_refuted : exists (l : list neop) (st : nst) (mu : list R),
  (forall i, ne_ok (st i) mu) /\ Forall (fun op => Forall (mu_ok mu) (neop_idx op)) l /\ is_ub (neprog l st).
Proof.
  exists [NAddTerm 0 3 0; NAdd 0 0], (fun _ => ne_zero ROps), [5]. split; [intros; constructor|]. split.
  - repeat constructor; cbn; lra.
  - eexists; reflexivity.
Qed.
Print Assumptions C17_self_addition_refuted.
Example C17_example : let l := [NAddTerm 0 3 0; NMul 1 0 2; NSub 1 0; NAddNum 1 7] in
  Forall no_self l /\ Forall (fun op => Forall (mu_ok [5]) (neop_idx op)) l /\
  neprog_mean [5] l (fun _ => 0) 1%nat = 3 / 5 + 7.
Proof.
  cbn zeta. split; [repeat constructor; cbn; auto|]. split; [repeat constructor; cbn; lra|].
  unfold vget; cbn -[Rdiv]. unfold nput; cbn -[Rdiv]. field.
Qed.

(** *** C18: symbolic matrix evaluation *)
Theorem C18_symbolic_matrix_evaluation : forall (A : coo rexpr) (mu : list R), valid_coo A -> fits A -> all_diag_touched A ->
  (forall k e, In (k, e) (elems A) -> ne_ok e mu) ->
  exists C : csr R, csr_build 0 (coo_eval A mu) = Ok C /\
    (exists M0, ncsr_build ROps A = Ok M0) /\
    forall M, ncsr_reach A M -> exists M', ncsr_evaluate ROps A M mu = Ok M' /\ ncsr_csr ROps M' = C.
Proof. exact ncsr_evaluate_v. Qed.
Print Assumptions C18_symbolic_matrix_evaluation.
Theorem C18_symbolic_dirichlet : forall (S : nsystem ROps) (id : nat) (v : R) (mu : list R),
  valid_system S -> (id < length (sb _ S))%nat -> sys_ok S mu ->
  exists S' D, nDirichlet ROps S id v = Ok S' /\ valid_system S' /\ sys_ok S' mu /\
    dDirichlet ROps (sys_eval S mu) id v = Ok D /\ same_system (sys_eval S' mu) D.
Proof. exact nDirichlet_v. Qed.
Print Assumptions C18_symbolic_dirichlet.
Definition exE : rexpr := mkNexpr ROps (1 : R) [((2 : R), 0%nat)].
Example C18_example : let S : nsystem ROps := mkSys _ (exA exE exE) [exE; exE; exE] in
  valid_system S /\ (1 < length (sb _ S))%nat /\ sys_ok S [4] /\ fits (sA _ S) /\ all_diag_touched (sA _ S).
Proof.
  cbn zeta. destruct (exA_valid rexpr exE exE) as [A [B C]].
  assert (OK : ne_ok exE [4]) by (repeat constructor; cbn; unfold vget; cbn; lra).
  split; [split; [exact A|split; [reflexivity|vm_compute; reflexivity]]|]. split; [vm_compute; auto|]. split; [split|auto].
  - intros k e I. cbn in I. destruct I as [I|[I|[I|[I|[I|[]]]]]]; inversion I; subst; auto.
  - intros e I. cbn in I. destruct I as [I|[I|[I|[]]]]; subst; auto.
Qed.
