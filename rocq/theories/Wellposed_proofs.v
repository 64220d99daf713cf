(** Positive definite systems have exactly one solution; currents of a system with zero row sums add up to zero. *)
From Coq Require Import String.
From Coq Require Import List Arith ZArith NArith Bool Lia Reals Lra.
From Verif Require Import Base SumR AlgebraModel AlgebraSpec SolversModel SolversSpec Pcg_theory Coo_proofs Csr_proofs System_proofs Algebra_bridge GeometryModel GeometrySpec DrawingModel DrawingSpec
  MeshModel MeshSpec Fem_proofs Energy_proofs Pin_proofs.
Import ListNotations.
Local Open Scope R_scope.

Definition unit (j i : nat) : R := if Nat.eqb j i then 1 else 0.
Lemma sum_unit : forall n (f : nat -> R) i, (i < n)%nat -> sumn n (fun j => f j * unit j i) = f i.
Proof.
  intros n f i H. induction n as [|n IH]; [lia|]. cbn [sumn]. destruct (Nat.eq_dec i n) as [->|N].
  - assert (Z : sumn n (fun j => f j * unit j n) = 0).
    { transitivity (sumn n (fun _ : nat => 0)); [apply sumn_ext; intros j Hj; unfold unit; destruct (Nat.eqb_spec j n); [lia|ring]|]. clear. induction n as [|n IH]; cbn [sumn]; [reflexivity|rewrite IH; ring]. }
    rewrite Z. unfold unit. rewrite Nat.eqb_refl. ring.
  - rewrite IH by lia. unfold unit. destruct (Nat.eqb_spec n i); [lia|]. ring.
Qed.
Lemma posdef_injective : forall n a x, posdef n a -> (forall i, (i < n)%nat -> sumn n (fun j => a i j * x j) = 0) -> forall i, (i < n)%nat -> x i = 0.
Proof.
  intros n a x H Z i Hi. destruct (Req_dec (x i) 0) as [E|E]; auto. exfalso. assert (Q : 0 < quad n a x) by (apply H; exists i; auto).
  assert (Q0 : quad n a x = 0).
  { unfold quad. transitivity (sumn n (fun _ : nat => 0)).
    - apply sumn_ext. intros k Hk. rewrite (sumn_ext n _ (fun j => x k * (a k j * x j))) by (intros; ring). rewrite sumn_scal, Z by auto. ring.
    - clear. induction n as [|n IH]; cbn [sumn]; [reflexivity|rewrite IH; ring]. }
  lra.
Qed.
Lemma posdef_solvable : forall n a b, posdef n a -> exists x : nat -> R, (forall i, (i < n)%nat -> sumn n (fun j => a i j * x j) = b i) /\
  forall y, (forall i, (i < n)%nat -> sumn n (fun j => a i j * y j) = b i) -> forall i, (i < n)%nat -> y i = x i.
Proof.
  intros n a b H.
  assert (U : forall x y : nat -> R, (forall i, (i < n)%nat -> sumn n (fun j => a i j * x j) = b i) -> (forall i, (i < n)%nat -> sumn n (fun j => a i j * y j) = b i) -> forall i, (i < n)%nat -> y i = x i).
  { intros x y Hx Hy i Hi. assert (D : (fun k => y k - x k) i = 0).
    { apply (posdef_injective n a (fun k => y k - x k) H); auto. intros k Hk. specialize (Hx k Hk). specialize (Hy k Hk).
      rewrite (sumn_ext n _ (fun j => a k j * y j + (-1) * (a k j * x j))) by (intros; ring). rewrite sumn_plus, sumn_scal, Hx, Hy. ring. }
    cbn beta in D. lra. }
  destruct (lin_dep n (fun i j => if Nat.eqb i n then b j else a j i)) as [c [[k [Hk Nk]] Hc]].
  assert (Hc' : forall j, (j < n)%nat -> sumn n (fun i => a j i * c i) + c n * b j = 0).
  { intros j Hj. specialize (Hc j Hj). cbn [sumn] in Hc. rewrite Nat.eqb_refl in Hc. rewrite (sumn_ext n _ (fun i => a j i * c i)) in Hc; auto.
    intros i Hi. destruct (Nat.eqb_spec i n); [lia|ring]. }
  destruct (Req_dec (c n) 0) as [Z|N].
  - exfalso. apply Nk. destruct (Nat.eq_dec k n) as [->|Nkn]; auto. apply (posdef_injective n a c H); [|lia]. intros i Hi. specialize (Hc' i Hi). rewrite Z in Hc'. lra.
  - exists (fun i => - c i / c n). split.
    + intros i Hi. rewrite (sumn_ext n _ (fun j => (- / c n) * (a i j * c j))) by (intros; field; auto). rewrite sumn_scal. specialize (Hc' i Hi).
      replace (sumn n (fun i0 => a i i0 * c i0)) with (- (c n * b i)) by lra. field. auto.
    + intros y Hy. apply U; auto. intros i Hi. rewrite (sumn_ext n _ (fun j => (- / c n) * (a i j * c j))) by (intros; field; auto). rewrite sumn_scal. specialize (Hc' i Hi).
      replace (sumn n (fun i0 => a i i0 * c i0)) with (- (c n * b i)) by lra. field. auto.
Qed.
Lemma value_sym : forall (A : coo R) i j, value 0 A i j = value 0 A j i.
Proof. intros A i j. unfold value. rewrite Nat.min_comm, Nat.max_comm. reflexivity. Qed.
Lemma sumn_swap2 : forall n m (f : nat -> nat -> R), sumn n (fun i => sumn m (f i)) = sumn m (fun j => sumn n (fun i => f i j)).
Proof.
  intros n m f. induction n as [|n IH]; cbn [sumn].
  - induction m as [|m IHm]; cbn [sumn]; [reflexivity|]. rewrite <- IHm. ring.
  - rewrite IH. rewrite <- sumn_plus. apply sumn_ext. intros. ring.
Qed.
(** the currents A x of a symmetric matrix with zero row sums add up to zero *)
Lemma kirchhoff : forall n (A : coo R) x, (forall i, (i < n)%nat -> sumn n (value 0 A i) = 0) -> sumn n (fun i => sumn n (fun j => value 0 A i j * x j)) = 0.
Proof.
  intros n A x H. rewrite sumn_swap2. transitivity (sumn n (fun _ : nat => 0)).
  - apply sumn_ext. intros j Hj. rewrite (sumn_ext n _ (fun i => x j * value 0 A j i)) by (intros; rewrite value_sym; ring). rewrite sumn_scal, H by auto. ring.
  - clear. induction n as [|n IH]; cbn [sumn]; [reflexivity|rewrite IH; ring].
Qed.
Lemma spd_solution : forall S : rsys, valid_system S -> spd (sA R S) -> exists x, solves S x /\ forall y, solves S y -> forall i, (i < sdim S)%nat -> y i = x i.
Proof.
  intros S [_ [C _]] H. unfold spd in H. rewrite C in H. fold (sdim S) in H.
  destruct (posdef_solvable (sdim S) (value 0 (sA R S)) (vget (sb R S)) H) as [x [X U]]. exists x. split; [exact X|]. intros y Hy. apply U. exact Hy.
Qed.
(** a conductor with some nodes held at given voltages *)
Lemma cd_unique : forall A (m : mesh ROps A) ps (sigma : A -> R) (l : list (nat * R)), fem_ready m ps -> all_used m ->
  (forall p, In p ps -> 0 < sigma p) -> 0 < m_depth m -> NoDup (map fst l) -> (forall p, In p l -> (fst p < length (m_points m))%nat) -> pins m (map fst l) ->
  exists S S' x, cd_getFemSystem ROps A sigma m = Ok S /\ dirichlet_all S l = Ok S' /\ valid_system S' /\ all_diag_touched (sA R S') /\ spd (sA R S') /\
    solves S' x /\ (forall y, solves S' y -> forall i, (i < length (m_points m))%nat -> y i = x i) /\
    (forall id v, In (id, v) l -> x id = v) /\ (forall i, (i < length (m_points m))%nat -> ~ In i (map fst l) -> row_eq S x i) /\
    sumn (length (m_points m)) (fun i => sumn (length (m_points m)) (fun j => value 0 (sA R S) i j * x j)) = 0.
Proof.
  intros A m ps sigma l RD U Hs Hd ND Hl HP. destruct (cd_pinned A m ps sigma l RD U Hs Hd Hl HP) as [S [S' [E [E' [V' [L' [D' SP]]]]]]].
  destruct (spd_solution S' V' SP) as [x [X UN]]. exists S, S', x. repeat (split; [solve [auto]|]).
  destruct (cd_energy m ps sigma RD U) as [S0 [E0 [VS [LS [_ [_ [RS _]]]]]]]. rewrite E in E0. injection E0 as <-.
  destruct (dirichlet_all_v S l VS ND) as [S'' [F' [LD HS]]].
  { intros id v I. rewrite LS. apply (Hl (id, v)). auto. }
  rewrite E' in F'. injection F' as <-. apply HS in X. destruct X as [X1 X2]. split; [rewrite <- L'; auto|]. split; auto. split; [intros i Hi; apply X2; rewrite LS; auto|].
  apply kirchhoff. auto.
Qed.
