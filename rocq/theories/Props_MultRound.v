(** C108: in which order the symmetric sparse product adds, and how much rounding it does. *)
From Coq Require Import List Arith ZArith NArith Bool Lia Reals Lra.
From Coq Require Import Floats.SpecFloat.
From Verif Require Import Base AlgebraModel AlgebraSpec SumR FloatSpec RoundSpec Round_proofs RoundUse_proofs MultOrder_proofs MultRoundSpec MultRound_proofs Props_Algebra.
Import ListNotations.
Local Open Scope R_scope.

(** *** whatever the scalars, entry i is the product with the diagonal to which each stored position of the row is added once *)
Theorem C108_order : forall (o : Ops) (z : T o) (A : coo (T o)) (r x : list (T o)), valid_coo A -> fits A -> all_diag_touched A ->
  length r = cm A -> length x = cm A ->
  exists C y, csr_build z A = Ok C /\ mult_sym o r C x = Ok y /\ length y = cm A /\
    forall i, (i < cm A)%nat -> exists js, NoDup js /\ (forall j, In j js <-> (j < cm A)%nat /\ j <> i /\ touched A (Nat.min i j) (Nat.max i j)) /\
      nth i y z = fold_left (fun t j => add o t (mul o (AlgebraSpec.value z A i j) (nth j x z))) js (mul o (AlgebraSpec.value z A i i) (nth i x z)).
Proof. exact order_spec. Qed.
Print Assumptions C108_order.

(** *** in binary64 the error grows with the number of stored positions of the row, not with the size of the matrix *)
Theorem C108_rounding : forall (A : coo f64) (r x : list f64), valid_coo A -> fits A -> all_diag_touched A -> length r = cm A -> length x = cm A ->
  double_matrix A -> Forall double x ->
  exists C y, csr_build fzero A = Ok C /\ mult_sym FOps r C x = Ok y /\ length y = cm A /\
    forall i, (i < cm A)%nat -> finite (nth i y fzero) -> INR (row_count A i) * u <= / 2 ->
      double (nth i y fzero) /\
      Rabs (RoundSpec.value (nth i y fzero) - row_exact A x i) <= 2 * INR (row_count A i) * u * row_abs A x i + 2 * INR (row_count A i) * tiny.
Proof. exact sym_err. Qed.
Print Assumptions C108_rounding.

(** a tridiagonal matrix of size 3 and a vector whose entries are not dyadic *)
Definition ex108 : coo f64 := exA (f64_ofZ 2) (f64_div (f64_ofZ (-1)) (f64_ofZ 10)).
Definition ex108_x : list f64 := [f64_ofZ 1; f64_div (f64_ofZ 2) (f64_ofZ 10); f64_div (f64_ofZ 3) (f64_ofZ 10)].
Example C108_example : valid_coo ex108 /\ fits ex108 /\ all_diag_touched ex108 /\ length ex108_x = cm ex108 /\ double_matrix ex108 /\ Forall double ex108_x /\
  row_count ex108 1 = 3%nat /\ row_count ex108 0 = 2%nat /\
  match csr_build fzero ex108 with Ok C => match mult_sym FOps ex108_x C ex108_x with Ok y => Forall finite y | _ => False end | _ => False end.
Proof.
  destruct (exA_valid f64 (f64_ofZ 2) (f64_div (f64_ofZ (-1)) (f64_ofZ 10))) as [A [B C]]. split; [exact A|]. split; [exact B|]. split; [exact C|].
  split; [reflexivity|]. split; [|split; [|split; [reflexivity|split; [reflexivity|vm_compute; repeat constructor]]]].
  - unfold double_matrix, ex108, exA. cbn [elems]. repeat constructor.
  - unfold ex108_x. repeat constructor.
Qed.
