(** Properties C13 and C56 on patterns that elimination does not leave.  Vocabulary in CholSpec.v and SolversSpec.v, model in SolversModel.v. *)
From Coq Require Import String.
From Coq Require Import List Arith ZArith NArith Bool Lia Reals Lra.
From Verif Require Import Base SumR AlgebraModel AlgebraSpec SolversModel SolversSpec Solvers_bridge CholSpec Chol_dense Chol2_proofs Props_Algebra Props_Solvers.
Import ListNotations.
Local Open Scope R_scope.

(** *** C13: when elimination creates no new position, the factorisation of an SPD matrix completes, and the diagonal it leaves
    is the reciprocal of that of the Cholesky factor. *)
Theorem C13_completes_closed : forall (A : coo R) (C : csr R), ready 0 A C -> spd A -> closed_pattern A ->
  exists L : csr R, ic_decomposition ROps C = Ok L /\ forall U, cholesky A U -> forall i, (i < cm A)%nat -> vget (diag L) i = / U i i.
Proof. exact completes. Qed.
Print Assumptions C13_completes_closed.
(** in particular when everything is stored, and for a chain of unknowns *)
Theorem C13_closed_patterns : forall A : coo R, all_stored A \/ tridiagonal A -> closed_pattern A.
Proof. intros A [H|H]; [apply stored_closed|apply tri_closed]; auto. Qed.
Print Assumptions C13_closed_patterns.
(** the Cholesky factor exists and there is only one *)
Theorem C13_factor_exists : forall (A : coo R) (C : csr R), ready 0 A C -> spd A -> closed_pattern A ->
  exists U V, cholesky A U /\ inverses (cm A) U V /\ (forall U', cholesky A U' -> forall i j, (i < cm A)%nat -> (j < cm A)%nat -> U' i j = U i j).
Proof. exact chol_of_stored. Qed.
Print Assumptions C13_factor_exists.
Example C13_closed_met : ready 0 exM exC /\ spd exM /\ tridiagonal exM /\ closed_pattern exM /\ ~ all_stored exM.
Proof.
  assert (TR : tridiagonal exM).
  { intros i j H T. unfold touched in T. cbn [exM exA elems map fst cm In] in *.
    destruct i as [|[|i]]; [|lia|lia]. destruct j as [|[|[|j]]]; try lia.
    exfalso. repeat (destruct T as [T|T]; [vm_compute in T; discriminate|]). destruct T. }
  split; [exact exM_ready|]. split; [exact exM_spd|]. split; [exact TR|]. split; [apply C13_closed_patterns; auto|].
  intros H. specialize (TR 0%nat 2%nat ltac:(cbn; lia) (H 0%nat 2%nat ltac:(lia) ltac:(cbn; lia))). lia.
Qed.
(** the matrix of C13_spd_factorisation_completes_refuted is not of that kind *)
Example C13_closed_needed : ~ closed_pattern (exB IZR).
Proof.
  intros H. specialize (H 0%nat 1%nat 3%nat ltac:(lia) ltac:(cbn; lia)). unfold touched in H. cbn [exB elems map fst In] in H.
  assert (T : In (key 1 3) [key 0 0; key 0 1; key 0 3; key 1 1; key 1 2; key 2 2; key 2 3; key 3 3]) by (apply H; cbn [In]; auto 10).
  cbn [In] in T. repeat (destruct T as [T|T]; [vm_compute in T; discriminate|]). destruct T.
Qed.

(** *** C56: exactly when the preconditioner of a fully stored SPD matrix is its inverse *)
Theorem C56_inverse_iff : forall (A : coo R) (C : csr R) U V, ready 0 A C -> spd A -> all_stored A -> cholesky A U -> inverses (cm A) U V ->
  exists L : csr R, ic_decomposition ROps C = Ok L /\
  ((forall t u r : list R, length t = cm A -> length u = cm A -> length r = cm A -> exists t' z, ic_apply ROps L t u r = Ok (t', z) /\ is_solution A r z)
   <-> no_new_zero (cm A) U V).
Proof. exact exact_iff. Qed.
Print Assumptions C56_inverse_iff.
(** then the solver may be used without any assumption on the computed factor *)
Theorem C56_usable : forall (A : coo R) (C : csr R) U V, ready 0 A C -> spd A -> all_stored A -> cholesky A U -> inverses (cm A) U V -> no_new_zero (cm A) U V ->
  usable CholeskyCG A C.
Proof. exact exact_usable. Qed.
Print Assumptions C56_usable.
(** and it stops after its first iteration at the solution, whatever the right-hand side, the start and the tolerance *)
Theorem C56_one_iteration : forall (A : coo R) (C : csr R) U V, ready 0 A C -> spd A -> all_stored A -> cholesky A U -> inverses (cm A) U V -> no_new_zero (cm A) U V ->
  forall (b x : list R) (e : R) (k : nat), length b = cm A -> length x = cm A -> e <> 0 -> (1 <= k)%nat ->
  exists x', run ROps CholeskyCG C b x e k = Ok (x', Some O) /\ (residual_norm A b x < Rabs e -> x' = x) /\ (Rabs e <= residual_norm A b x -> is_solution A b x').
Proof. exact one_step. Qed.
Print Assumptions C56_one_iteration.
(** [[1,1],[1,2]]: factor [[1,1],[0,1]], inverse [[1,-1],[0,1]] *)
Definition exG : coo R := mkCoo [(key 0 0, 1); (key 0 1, 1); (key 1 1, 2)] 2.
Definition exGC : csr R := mkCsr [0; 1; 1]%nat [1]%nat [1] [1; 2] 1 2.
Definition exGU (i j : nat) : R := if Nat.leb i j then 1 else 0.
Definition exGV (i j : nat) : R := if Nat.eqb i j then 1 else if Nat.eqb j (S i) then -1 else 0.
Ltac two i := destruct i as [|[|i]]; [| |lia].
Ltac three i := destruct i as [|[|[|i]]]; [| | |lia].
Example C56_met : ready 0 exG exGC /\ spd exG /\ all_stored exG /\ cholesky exG exGU /\ inverses 2 exGU exGV /\ no_new_zero 2 exGU exGV.
Proof.
  assert (VAL : forall i j, (i < 2)%nat -> (j < 2)%nat -> value 0 exG i j = if Nat.eqb (i + j) 2 then 2 else 1) by (intros i j Hi Hj; two i; two j; reflexivity).
  split; [|split; [|split; [|split; [|split]]]].
  - split; [split|split; [split; reflexivity|split; [|reflexivity]]].
    + cbn [exG elems map fst]. repeat constructor; vm_compute; intuition discriminate.
    + intros k w I. cbn [exG elems] in I.
      repeat (destruct I as [I|I]; [inversion I; subst; match goal with |- exists i j, _ /\ _ /\ key ?a ?c = _ => exists a, c; split; [lia|split; [cbn; lia|reflexivity]] end|]).
      destruct I.
    + intros i Hi. unfold touched. cbn [exG elems map fst cm] in *. two i; cbn [In]; auto 12.
  - intros x [i [Hi N]]. unfold quad. cbn [exG cm] in Hi. change (cm exG) with 2%nat. cbn [sumn]. rewrite !VAL by lia. cbn [Nat.eqb Nat.add].
    assert (Q : forall a, 0 <= a * a) by (intros; apply Rle_0_sqr). assert (P : forall a, a <> 0 -> 0 < a * a) by (intros; apply Rsqr_pos_lt; auto).
    set (x0 := x 0%nat) in *. set (x1 := x 1%nat) in *.
    match goal with |- 0 < ?e => replace e with ((x0 + x1) * (x0 + x1) + x1 * x1) by ring end. pose proof (Q (x0 + x1)). pose proof (Q x1).
    destruct (Req_dec x1 0) as [Z1|Z1]; [|pose proof (P _ Z1); lra]. destruct (Req_dec (x0 + x1) 0) as [Z0|Z0]; [|pose proof (P _ Z0); lra].
    exfalso. apply N. two i; fold x0 x1; lra.
  - intros i j L H. cbn [exG cm] in H. unfold touched. cbn [exG elems map fst]. two j; two i; try lia; cbn [In]; auto.
  - change (cm exG) with 2%nat. split; [|split].
    + intros i j Hi L. cbn [exG cm] in Hi. two i; two j; try lia; reflexivity.
    + intros i Hi. cbn [exG cm] in Hi. two i; unfold exGU; cbn [Nat.leb]; lra.
    + intros i j Hi Hj. cbn [exG cm] in Hi, Hj. rewrite VAL by auto. two i; two j; unfold exGU; cbn; ring.
  - intros i j Hi Hj. two i; two j; unfold exGU, exGV, delta; cbn; split; ring.
  - intros i j H. two i; two j; try lia. unfold exGV. cbn. intros; lra.
Qed.
(** the matrix of C56_full_pattern_inverse_refuted violates the condition: the inverse of its factor has a zero the factor has not *)
Example C56_condition_fails : cholesky exF exGU /\ inverses 3 exGU exGV /\ ~ no_new_zero 3 exGU exGV.
Proof.
  assert (VAL : forall i j, (i < 3)%nat -> (j < 3)%nat -> value 0 exF i j = INR (S (Nat.min i j))) by (intros i j Hi Hj; three i; three j; cbn; unfold value; cbn; try ring; lra).
  split; [|split].
  - change (cm exF) with 3%nat. split; [|split].
    + intros i j Hi L. cbn [exF cm] in Hi. three i; three j; try lia; reflexivity.
    + intros i Hi. cbn [exF cm] in Hi. three i; unfold exGU; cbn [Nat.leb]; lra.
    + intros i j Hi Hj. cbn [exF cm] in Hi, Hj. rewrite VAL by auto. three i; three j; unfold exGU; cbn; ring.
  - intros i j Hi Hj. three i; three j; unfold exGU, exGV, delta; cbn; split; ring.
  - intros H. specialize (H 0%nat 2%nat ltac:(lia) eq_refl). unfold exGU in H. cbn in H. lra.
Qed.
