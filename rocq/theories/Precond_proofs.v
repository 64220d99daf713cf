(** The three preconditioners satisfy what the PCG theory needs; consequences for the solver entry points. *)
From Coq Require Import String.
From Coq Require Import List Arith ZArith NArith Bool Lia Reals Lra.
From Verif Require Import Base AlgebraModel AlgebraSpec Csr_proofs SumR Mult_proofs Vec_proofs SolversModel Safe_proofs Ssor_proofs Pcg_theory Solver_proofs Solver_spd.
Import ListNotations.
Local Open Scope R_scope.

(** ** SPD facts *)
Lemma quad_two : forall n a i j s t, (i < n)%nat -> (j < n)%nat -> i <> j -> a i j = a j i ->
  quad n a (fun k => if Nat.eqb k i then s else if Nat.eqb k j then t else 0) = a i i * s * s + 2 * a i j * s * t + a j j * t * t.
Proof.
  intros n a i j s t Hi Hj NE Sy. unfold quad.
  set (x := fun k => if Nat.eqb k i then s else if Nat.eqb k j then t else 0).
  assert (Xi : x i = s) by (unfold x; rewrite Nat.eqb_refl; auto).
  assert (Xj : x j = t) by (clear Xi; unfold x; rewrite Nat.eqb_refl; destruct (Nat.eqb_spec j i); [congruence|auto]).
  assert (Xo : forall k, k <> i -> k <> j -> x k = 0) by (clear; intros k K1 K2; unfold x; destruct (Nat.eqb_spec k i); [contradiction|]; destruct (Nat.eqb_spec k j); [contradiction|reflexivity]).
  assert (S2 : forall g, (forall k, (k < n)%nat -> k <> i -> k <> j -> g k = 0) -> sumn n g = g i + g j).
  { intros g Hg. rewrite (sumn_ext n g (fun k => (if Nat.eqb k i then g k else 0) + (if Nat.eqb k j then g k else 0))).
    - rewrite sumn_plus, !sumn_delta by auto. auto.
    - intros k Hk. destruct (Nat.eqb_spec k i) as [K1|K1], (Nat.eqb_spec k j) as [K2|K2]; try congruence; try ring. rewrite Hg by auto. ring. }
  assert (In : forall k, sumn n (fun l => x k * a k l * x l) = x k * a k i * x i + x k * a k j * x j).
  { intros k. rewrite (S2 (fun l => x k * a k l * x l)); auto. intros l Hl K1 K2. rewrite (Xo l) by auto. ring. }
  rewrite (sumn_ext n _ (fun k => x k * a k i * x i + x k * a k j * x j)) by (intros; apply In).
  rewrite (S2 (fun k => x k * a k i * x i + x k * a k j * x j)).
  - rewrite Xi, Xj, Sy. ring.
  - intros k Hk K1 K2. rewrite (Xo k) by auto. ring.
Qed.
Lemma quad_one : forall n a i, (i < n)%nat -> quad n a (fun k => if Nat.eqb k i then 1 else 0) = a i i.
Proof.
  intros n a i Hi. unfold quad. rewrite (sumn_single n i); auto.
  - rewrite (sumn_single n i); auto.
    + rewrite Nat.eqb_refl. ring.
    + intros j Hj NE. destruct (Nat.eqb_spec j i); [congruence|ring].
  - intros j Hj NE. apply sumn_0. intros l Hl. destruct (Nat.eqb_spec j i); [congruence|ring].
Qed.
Lemma posdef_diag : forall n a i, posdef n a -> (i < n)%nat -> 0 < a i i.
Proof. intros n a i PD Hi. rewrite <- (quad_one n a i Hi). apply PD. exists i. split; auto. rewrite Nat.eqb_refl. lra. Qed.

(** x.Ax <= n x.Dx *)
Lemma spd_trace_bound : forall n a x, posdef n a -> (forall i j, (i < n)%nat -> (j < n)%nat -> a i j = a j i) ->
  quad n a x <= INR n * sumn n (fun i => a i i * x i * x i).
Proof.
  intros n a x PD Sy.
  assert (T : forall i j, (i < n)%nat -> (j < n)%nat -> 2 * (x i * a i j * x j) <= a i i * x i * x i + a j j * x j * x j).
  { intros i j Hi Hj. destruct (Nat.eq_dec i j) as [->|NE].
    - lra.
    - pose proof (quad_two n a i j (x i) (- x j) Hi Hj NE (Sy i j Hi Hj)) as Q.
      assert (0 <= quad n a (fun k => if Nat.eqb k i then x i else if Nat.eqb k j then - x j else 0)).
      { rewrite quad_dotn. apply A_nonneg. apply posdef_dotn; auto. }
      lra. }
  assert (2 * quad n a x <= 2 * (INR n * sumn n (fun i => a i i * x i * x i))); [|lra].
  unfold quad. rewrite <- sumn_scal.
  assert (E : 2 * (INR n * sumn n (fun i => a i i * x i * x i)) = sumn n (fun i => sumn n (fun j => a i i * x i * x i + a j j * x j * x j))).
  { assert (CN : forall p c, sumn p (fun _ => c) = INR p * c).
    { induction p as [|p IH]; intros c; [cbn; ring|]. cbn [sumn]. rewrite IH, S_INR. ring. }
    rewrite (sumn_ext n (fun i => sumn n (fun j => a i i * x i * x i + a j j * x j * x j)) (fun i => INR n * (a i i * x i * x i) + sumn n (fun j => a j j * x j * x j))).
    - rewrite sumn_plus, sumn_scal, CN. ring.
    - intros i Hi. rewrite sumn_plus, CN. auto. }
  rewrite E. apply sumn_le. intros i Hi. rewrite <- sumn_scal. apply sumn_le. intros j Hj. apply T; auto.
Qed.

(** ** Jacobi *)
Section Jacobi.
Variable C : rcsr.
Notation n := (m C).
Notation a := (ent C).
Hypothesis W : wf_csr C.

Lemma jacobi_P : (forall i, (i < n)%nat -> vget (diag C) i <> 0) ->
  forM_up n (fun i (P : list R) => d <- get (diag C) i ;; q <- Rdivr 1 d ;; set P i q) (zeros ROps n) = Ok (mk n (fun i => / vget (diag C) i)).
Proof.
  intros D. pose proof (wf_diag C W) as LD.
  destruct (forM_up_inv (list R) (fun i s => length s = n /\ forall k, (k < i)%nat -> vget s k = / vget (diag C) k)
     (fun i (P : list R) => d <- get (diag C) i ;; q <- Rdivr 1 d ;; set P i q) n (zeros ROps n)) as [s [E [Ls V]]].
  - split; [apply (len_zeros ROps)|]. intros; lia.
  - intros i s Hi [Ls Vs]. rewrite (get_lt _ (diag C) i 0) by lia. cbn [bind]. rewrite Rdivr_ok by (apply D; auto). cbn [bind].
    rewrite set_lt by lia. eexists; split; [reflexivity|]. rewrite upd_length. split; auto. intros k Hk. unfold vget at 1. rewrite nth_upd by lia.
    destruct (Nat.eqb_spec k i); [subst; unfold vget; unfold Rdiv; ring|]. apply Vs; lia.
  - rewrite E. f_equal. apply eq_mk; auto.
Qed.
Lemma jacobi_P_bad : forall i, (i < n)%nat -> vget (diag C) i = 0 ->
  is_nonfin (forM_up n (fun i (P : list R) => d <- get (diag C) i ;; q <- Rdivr 1 d ;; set P i q) (zeros ROps n)).
Proof.
  intros i Hi Z. pose proof (wf_diag C W) as LD.
  assert (G : forall k s (L : list R), (s <= i < s + k)%nat -> (s + k <= n)%nat -> length L = n ->
    is_nonfin (forM_from k s (fun i (P : list R) => d <- get (diag C) i ;; q <- Rdivr 1 d ;; set P i q) L)).
  { induction k as [|k IH]; intros s L H1 H2 LL; [lia|]. cbn [forM_from]. rewrite (get_lt _ (diag C) s 0) by lia. cbn [bind].
    destruct (Req_EM_T (vget (diag C) s) 0) as [Zs|Zs].
    - change (nth s (diag C) 0) with (vget (diag C) s). rewrite Zs. destruct (Rdivr_zero 1) as [w E]. rewrite E. cbn. eexists; reflexivity.
    - rewrite Rdivr_ok by auto. cbn [bind]. rewrite set_lt by lia. cbn [bind]. destruct (Nat.eq_dec s i) as [->|NE]; [contradiction|].
      apply IH; [lia|lia|rewrite upd_length; auto]. }
  apply G; try lia. apply (len_zeros ROps).
Qed.

Hypothesis D : forall i, (i < n)%nat -> vget (diag C) i <> 0.
Definition JP : list R := mk n (fun i => / vget (diag C) i).
Lemma jp_ok : forall r : list R, length r = n -> exists z : list R, hadamard ROps JP r = Ok z /\ length z = n /\ forall i, (i < n)%nat -> vget z i = / vget (diag C) i * vget r i.
Proof.
  intros r L. unfold hadamard. destruct (zip2_ok Rmult JP r) as [z [E [Lz V]]]; [unfold JP; rewrite mk_length; lia|].
  unfold JP in Lz, V. rewrite mk_length in *. exists z. split; [exact E|]. split; auto. intros i Hi. rewrite V by auto. rewrite vget_mk by auto. auto.
Qed.
Lemma jp_sym : forall r s zr zs : list R, length r = n -> length s = n -> hadamard ROps JP r = Ok zr -> hadamard ROps JP s = Ok zs ->
  dotn n (vget r) (vget zs) = dotn n (vget s) (vget zr).
Proof.
  intros r s zr zs Lr Ls Er Es. destruct (jp_ok r Lr) as [z1 [E1 [_ V1]]]. destruct (jp_ok s Ls) as [z2 [E2 [_ V2]]].
  rewrite Er in E1; rewrite Es in E2; inversion E1; inversion E2; subst. apply sumn_ext. intros i Hi. rewrite V1, V2 by auto. ring.
Qed.
Hypothesis PD : posdef n a.
Lemma jp_pos : forall r z : list R, length r = n -> hadamard ROps JP r = Ok z -> 0 < dotn n (vget r) (vget r) -> 0 < dotn n (vget r) (vget z).
Proof.
  intros r z Lr E P. destruct (jp_ok r Lr) as [z1 [E1 [_ V1]]]. rewrite E in E1; inversion E1; subst z1.
  destruct (nz_dot n (vget r)) as [i0 [Hi0 N0]]; [lra|].
  assert (DP : forall i, (i < n)%nat -> 0 < / vget (diag C) i).
  { intros i Hi. apply Rinv_0_lt_compat. rewrite <- ent_diag. apply (posdef_diag n); auto. }
  unfold dotn. rewrite (sumn_ext n _ (fun i => / vget (diag C) i * (vget r i * vget r i))) by (intros i Hi; rewrite V1 by auto; ring).
  assert (NN : forall i, (i < n)%nat -> 0 <= / vget (diag C) i * (vget r i * vget r i)).
  { intros i Hi. apply Rmult_le_pos; [apply Rlt_le, DP; auto|apply Rle_0_sqr]. }
  pose proof (sumn_nonneg n _ NN) as S0. destruct (Req_dec (sumn n (fun i => / vget (diag C) i * (vget r i * vget r i))) 0) as [Z|Z]; [|lra].
  exfalso. pose proof (sumn_pos_zero n _ NN Z i0 Hi0) as Q. cbn in Q. apply Rmult_integral in Q. destruct Q as [Q|Q].
  - pose proof (DP i0 Hi0). lra.
  - apply N0. apply Rsqr_0_uniq. exact Q.
Qed.
Lemma jp_bound : forall r z : list R, length r = n -> hadamard ROps JP r = Ok z ->
  dotn n (vget z) (am n a (vget z)) <= (INR n + 1) * dotn n (vget r) (vget z).
Proof.
  intros r z Lr E. destruct (jp_ok r Lr) as [z1 [E1 [_ V1]]]. rewrite E in E1; inversion E1; subst z1.
  rewrite <- quad_dotn. pose proof (spd_trace_bound n a (vget z) PD (fun i j _ _ => ent_sym C i j)) as B.
  assert (Q : sumn n (fun i => a i i * vget z i * vget z i) = dotn n (vget r) (vget z)).
  { apply sumn_ext. intros i Hi. rewrite ent_diag. rewrite V1 by auto. field. apply D; auto. }
  rewrite Q in B.
  assert (0 <= dotn n (vget r) (vget z)).
  { rewrite <- Q. apply sumn_nonneg. intros i Hi. pose proof (posdef_diag n a i PD Hi) as P. rewrite Rmult_assoc. apply Rmult_le_pos; [lra|apply Rle_0_sqr]. }
  lra.
Qed.
End Jacobi.

(** ** SSOR *)
Section SsorPos.
Variable n : nat.
Variable a : nat -> nat -> R.
Hypothesis Sy : forall i j, (i < n)%nat -> (j < n)%nat -> a i j = a j i.
(** z is what the preconditioner returns for r *)
Definition ssor_rel (w : R) (r y z : nat -> R) : Prop :=
  (forall i, (i < n)%nat -> a i i * y i + w * lower_sum n a y i = w * (2 - w) * r i) /\
  (forall i, (i < n)%nat -> a i i * z i + w * upper_sum n a z i = a i i * y i).

Lemma lu_adj : forall x y, dotn n (lower_sum n a x) y = dotn n x (upper_sum n a y).
Proof.
  intros x y. unfold dotn, lower_sum, upper_sum.
  rewrite (sumn_ext n _ (fun i => sumn n (fun j => if Nat.ltb j i then a i j * x j * y i else 0))).
  - rewrite sumn_exchange. apply sumn_ext. intros j Hj. rewrite <- sumn_scal. apply sumn_ext. intros i Hi. destruct (Nat.ltb_spec j i); [rewrite (Sy i j) by auto; ring|ring].
  - intros i Hi. rewrite <- sumn_scal_r. apply sumn_ext. intros j Hj. destruct (Nat.ltb j i); ring.
Qed.
Lemma ssor_form : forall w r y z r' y' z', ssor_rel w r y z -> ssor_rel w r' y' z' ->
  w * (2 - w) * dotn n r z' = sumn n (fun i => a i i * y i * y' i).
Proof.
  intros w r y z r' y' z' [H1 H2] [H1' H2'].
  assert (E1 : w * (2 - w) * dotn n r z' = sumn n (fun i => a i i * y i * z' i) + w * dotn n (lower_sum n a y) z').
  { unfold dotn. rewrite <- !sumn_scal, <- sumn_plus. apply sumn_ext. intros i Hi. rewrite <- Rmult_assoc, <- H1 by auto. ring. }
  rewrite E1, lu_adj. unfold dotn. rewrite <- sumn_scal, <- sumn_plus. apply sumn_ext. intros i Hi.
  transitivity ((a i i * y' i) * y i); [rewrite <- H2' by auto|]; ring.
Qed.
Lemma ssor_symmetric : forall w r y z r' y' z', w * (2 - w) <> 0 -> ssor_rel w r y z -> ssor_rel w r' y' z' -> dotn n r z' = dotn n r' z.
Proof.
  intros w r y z r' y' z' Hw H H'. apply (Rmult_eq_reg_l (w * (2 - w))); auto.
  rewrite (ssor_form w r y z r' y' z' H H'), (ssor_form w r' y' z' r y z H' H). apply sumn_ext; intros; ring.
Qed.
Lemma ssor_positive : forall w r y z, 0 < w * (2 - w) -> (forall i, (i < n)%nat -> 0 < a i i) -> ssor_rel w r y z -> 0 < dotn n r r -> 0 < dotn n r z.
Proof.
  intros w r y z Hw D H P. pose proof (ssor_form w r y z r y z H H) as F.
  assert (NN : forall i, (i < n)%nat -> 0 <= a i i * y i * y i).
  { intros i Hi. rewrite Rmult_assoc. apply Rmult_le_pos; [apply Rlt_le, D; auto|apply Rle_0_sqr]. }
  pose proof (sumn_nonneg n _ NN) as S0.
  destruct (Req_dec (sumn n (fun i => a i i * y i * y i)) 0) as [Z|Z].
  - exfalso. assert (Y0 : forall i, (i < n)%nat -> y i = 0).
    { intros i Hi. pose proof (sumn_pos_zero n _ NN Z i Hi) as Q. cbn in Q. rewrite Rmult_assoc in Q. apply Rmult_integral in Q.
      pose proof (D i Hi). destruct Q as [Q|Q]; [lra|]. apply Rsqr_0_uniq. exact Q. }
    assert (R0 : forall i, (i < n)%nat -> r i = 0).
    { intros i Hi. destruct H as [H1 _]. specialize (H1 i Hi).
      assert (L0 : lower_sum n a y i = 0) by (apply sumn_0; intros j Hj; rewrite Y0 by auto; destruct (Nat.ltb j i); ring).
      rewrite L0, Y0 in H1 by auto. assert (w * (2 - w) * r i = 0) by lra. apply Rmult_integral in H. destruct H; [lra|auto]. }
    rewrite dotn_0l in P by auto. lra.
  - assert (0 < w * (2 - w) * dotn n r z) by lra. apply (Rmult_lt_reg_l (w * (2 - w))); lra.
Qed.
Lemma am_split : forall x i, (i < n)%nat -> am n a x i = a i i * x i + upper_sum n a x i + lower_sum n a x i.
Proof. intros x i Hi. unfold am, upper_sum, lower_sum. rewrite (sumn_split3 n i) by auto. auto. Qed.
(** z.Az <= r.z *)
Lemma ssor_bound : forall w r y z, 0 < w * (2 - w) -> (forall i, (i < n)%nat -> 0 < a i i) -> ssor_rel w r y z -> dotn n z (am n a z) <= dotn n r z.
Proof.
  intros w r y z Hw D H. pose proof (ssor_form w r y z r y z H H) as F.
  set (u := upper_sum n a z).
  assert (E : dotn n z (am n a z) = sumn n (fun i => a i i * z i * z i + 2 * z i * u i)).
  { transitivity (sumn n (fun i => a i i * z i * z i + z i * u i) + dotn n (lower_sum n a z) z).
    - unfold dotn. rewrite <- sumn_plus. apply sumn_ext. intros i Hi. rewrite am_split by auto. unfold u. ring.
    - rewrite lu_adj. unfold dotn. fold u. rewrite <- sumn_plus. apply sumn_ext; intros; ring. }
  apply (Rmult_le_reg_l (w * (2 - w))); auto. rewrite F, E, <- sumn_scal. apply sumn_le. intros i Hi.
  destruct H as [_ H2]. specialize (H2 i Hi). fold (u i) in H2. change (upper_sum n a z i) with (u i) in H2.
  pose proof (D i Hi) as Di. set (d := a i i) in *.
  apply (Rmult_le_reg_l d); auto.
  replace (d * (d * y i * y i)) with ((d * y i) * (d * y i)) by ring. rewrite <- H2.
  assert (Q : 0 <= ((1 - w) * (d * z i) - w * u i) * ((1 - w) * (d * z i) - w * u i)) by apply Rle_0_sqr.
  replace ((d * z i + w * u i) * (d * z i + w * u i)) with (((1 - w) * (d * z i) - w * u i) * ((1 - w) * (d * z i) - w * u i) + d * (w * (2 - w) * (d * z i * z i + 2 * z i * u i))) by ring.
  lra.
Qed.
(** uniqueness *)
Lemma ssor_unique : forall w r y z y' z', (forall i, (i < n)%nat -> a i i <> 0) -> ssor_rel w r y z -> ssor_rel w r y' z' ->
  forall i, (i < n)%nat -> z i = z' i.
Proof.
  intros w r y z y' z' D [H1 H2] [H1' H2'].
  assert (Y : forall k i, (i < k)%nat -> (i < n)%nat -> y i = y' i).
  { induction k as [|k IH]; intros i Hk Hi; [lia|].
    assert (L : lower_sum n a y i = lower_sum n a y' i).
    { apply sumn_ext. intros j Hj. destruct (Nat.ltb_spec j i); auto. rewrite IH by lia. auto. }
    specialize (H1 i Hi). specialize (H1' i Hi). rewrite L in H1. apply (Rmult_eq_reg_l (a i i)); auto. lra. }
  assert (Z : forall k i, (n <= i + k)%nat -> (i < n)%nat -> z i = z' i).
  { induction k as [|k IH]; intros i Hk Hi; [lia|].
    assert (L : upper_sum n a z i = upper_sum n a z' i).
    { apply sumn_ext. intros j Hj. destruct (Nat.ltb_spec i j); auto. rewrite IH by lia. auto. }
    specialize (H2 i Hi). specialize (H2' i Hi). rewrite L in H2. rewrite (Y (S i) i) in H2 by lia. apply (Rmult_eq_reg_l (a i i)); auto. lra. }
  intros i Hi. apply (Z n i); lia.
Qed.
Lemma ssor_linear : forall w r y z r' y' z' t, ssor_rel w r y z -> ssor_rel w r' y' z' ->
  ssor_rel w (fun i => r i + t * r' i) (fun i => y i + t * y' i) (fun i => z i + t * z' i).
Proof.
  intros w r y z r' y' z' t [H1 H2] [H1' H2']. split; intros i Hi.
  - assert (L : lower_sum n a (fun i => y i + t * y' i) i = lower_sum n a y i + t * lower_sum n a y' i).
    { unfold lower_sum. rewrite <- sumn_scal, <- sumn_plus. apply sumn_ext. intros j Hj. destruct (Nat.ltb j i); ring. }
    rewrite L. specialize (H1 i Hi). specialize (H1' i Hi).
    replace (w * (2 - w) * (r i + t * r' i)) with (w * (2 - w) * r i + t * (w * (2 - w) * r' i)) by ring. rewrite <- H1, <- H1'. ring.
  - assert (L : upper_sum n a (fun i => z i + t * z' i) i = upper_sum n a z i + t * upper_sum n a z' i).
    { unfold upper_sum. rewrite <- sumn_scal, <- sumn_plus. apply sumn_ext. intros j Hj. destruct (Nat.ltb i j); ring. }
    rewrite L. specialize (H2 i Hi). specialize (H2' i Hi).
    replace (a i i * (y i + t * y' i)) with (a i i * y i + t * (a i i * y' i)) by ring. rewrite <- H2, <- H2'. ring.
Qed.
End SsorPos.

Section Ssor.
Variable C : rcsr.
Variable w : R.
Notation n := (m C).
Notation a := (ent C).
Hypothesis W : wf_csr C.
Hypothesis U : is_u32 (m C).
Hypothesis N1 : (1 <= m C)%nat.
Hypothesis D : forall i, (i < n)%nat -> vget (diag C) i <> 0.

Lemma ssor_f_ok : forall r : list R, length r = n -> exists y z : list R, ssor_f C w r = Ok z /\ length z = n /\ ssor_rel n a w (vget r) (vget y) (vget z).
Proof.
  intros r L. destruct (ssor_ok C (zeros ROps n) r w W U N1) as [y [z [E [Lz [Ly [H1 H2]]]]]]; auto; [apply (len_zeros ROps)|].
  exists y, z. split; auto. split; auto. split; intros i Hi; rewrite ent_diag; auto.
Qed.
Hypothesis w_ok : 0 < w * (2 - w).
Lemma ssor_f_sym : forall r s zr zs : list R, length r = n -> length s = n -> ssor_f C w r = Ok zr -> ssor_f C w s = Ok zs ->
  dotn n (vget r) (vget zs) = dotn n (vget s) (vget zr).
Proof.
  intros r s zr zs Lr Ls Er Es. destruct (ssor_f_ok r Lr) as [y1 [z1 [E1 [_ R1]]]]. destruct (ssor_f_ok s Ls) as [y2 [z2 [E2 [_ R2]]]].
  rewrite Er in E1; rewrite Es in E2; inversion E1; inversion E2; subst.
  apply (ssor_symmetric n a (fun i j _ _ => ent_sym C i j) w _ (vget y1) _ _ (vget y2)); auto. lra.
Qed.
Hypothesis DP : forall i, (i < n)%nat -> 0 < vget (diag C) i.
Lemma ssor_f_pos : forall r z : list R, length r = n -> ssor_f C w r = Ok z -> 0 < dotn n (vget r) (vget r) -> 0 < dotn n (vget r) (vget z).
Proof.
  intros r z Lr E P. destruct (ssor_f_ok r Lr) as [y1 [z1 [E1 [_ R1]]]]. rewrite E in E1; inversion E1; subst.
  apply (ssor_positive n a (fun i j _ _ => ent_sym C i j) w _ (vget y1)); auto. intros i Hi. rewrite ent_diag. apply DP; auto.
Qed.
Lemma ssor_f_bound : forall r z : list R, length r = n -> ssor_f C w r = Ok z -> dotn n (vget z) (am n a (vget z)) <= 1 * dotn n (vget r) (vget z).
Proof.
  intros r z Lr E. destruct (ssor_f_ok r Lr) as [y1 [z1 [E1 [_ R1]]]]. rewrite E in E1; inversion E1; subst. rewrite Rmult_1_l.
  apply (ssor_bound n a (fun i j _ _ => ent_sym C i j) w _ (vget y1)); auto. intros i Hi. rewrite ent_diag. apply DP; auto.
Qed.
End Ssor.

(** ** Incomplete Cholesky: z = U U^T r for an upper triangular U *)
Section Ic.
Variable L : rcsr.
Notation n := (m L).
Hypothesis W : wf_csr L.
Definition utr (r : nat -> R) (i : nat) : R := sumn n (fun j => if Nat.leb j i then ent L i j * r j else 0).
Lemma ic_f_ok : forall r : list R, length r = n -> exists z : list R, ic_f L r = Ok z /\ length z = n /\
  forall i, (i < n)%nat -> vget z i = sumn n (fun j => if Nat.leb i j then ent L i j * utr (vget r) j else 0).
Proof.
  intros r Lr. unfold ic_f, ic_apply. assert (LZ : length (zeros ROps n) = n) by apply (len_zeros ROps).
  destruct (mult_lower_ok L (zeros ROps n) r W LZ Lr) as [t [E1 [M1 V1]]]. rewrite E1. cbn [bind].
  destruct (mult_upper_ok L (zeros ROps n) t W LZ M1) as [z [E2 [M2 V2]]]. rewrite E2. cbn [bind snd].
  exists z. split; auto. split; auto. intros i Hi. rewrite V2 by auto. apply sumn_ext. intros j Hj. rewrite V1 by auto. auto.
Qed.
Lemma ic_form : forall r s zs : list R, length r = n -> length s = n -> ic_f L s = Ok zs ->
  dotn n (vget r) (vget zs) = dotn n (utr (vget r)) (utr (vget s)).
Proof.
  intros r s zs Lr Ls E. destruct (ic_f_ok s Ls) as [z [E2 [_ V]]]. rewrite E in E2; inversion E2; subst z.
  unfold dotn.
  rewrite (sumn_ext n _ (fun i => sumn n (fun j => if Nat.leb i j then ent L i j * utr (vget s) j * vget r i else 0))).
  - rewrite sumn_exchange. apply sumn_ext. intros j Hj. unfold utr at 2. rewrite <- sumn_scal_r. apply sumn_ext. intros i Hi.
    destruct (Nat.leb i j); [rewrite (ent_sym L i j); ring|ring].
  - intros i Hi. rewrite V by auto. rewrite <- sumn_scal. apply sumn_ext. intros j Hj. destruct (Nat.leb i j); ring.
Qed.
Lemma ic_f_sym : forall r s zr zs : list R, length r = n -> length s = n -> ic_f L r = Ok zr -> ic_f L s = Ok zs ->
  dotn n (vget r) (vget zs) = dotn n (vget s) (vget zr).
Proof. intros r s zr zs Lr Ls Er Es. rewrite (ic_form r s zs), (ic_form s r zr) by auto. apply dotn_sym. Qed.
Lemma ic_f_psd : forall r z : list R, length r = n -> ic_f L r = Ok z -> 0 <= dotn n (vget r) (vget z).
Proof. intros r z Lr E. rewrite (ic_form r r z) by auto. apply dotn_nonneg. Qed.
Hypothesis D : forall i, (i < n)%nat -> vget (diag L) i <> 0.
Lemma ic_f_pos : forall r z : list R, length r = n -> ic_f L r = Ok z -> 0 < dotn n (vget r) (vget r) -> 0 < dotn n (vget r) (vget z).
Proof.
  intros r z Lr E P. rewrite (ic_form r r z) by auto. pose proof (dotn_nonneg n (utr (vget r))).
  destruct (Req_dec (dotn n (utr (vget r)) (utr (vget r))) 0) as [Z|Z]; [|lra]. exfalso.
  assert (R0 : forall k i, (i < k)%nat -> (i < n)%nat -> vget r i = 0).
  { induction k as [|k IH]; intros i Hk Hi; [lia|]. pose proof (dotn_zero n _ Z i Hi) as Q. unfold utr in Q.
    rewrite (sumn_single n i) in Q; auto.
    - rewrite Nat.leb_refl, ent_diag in Q. apply Rmult_integral in Q. destruct Q as [Q|Q]; auto. exfalso. apply (D i); auto.
    - intros j Hj NE. destruct (Nat.leb_spec j i); auto. rewrite IH by lia. ring. }
  rewrite dotn_0l in P; [lra|]. intros i Hi. apply (R0 (S i)); lia.
Qed.
End Ic.
