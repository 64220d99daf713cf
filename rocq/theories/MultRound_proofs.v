(** Rounding of the symmetric sparse product in binary64. *)
From Coq Require Import List Arith ZArith NArith Bool Lia Reals Lra Psatz Permutation.
From Coq Require Import Floats.SpecFloat.
From Verif Require Import Base AlgebraModel AlgebraSpec SumR Coo_proofs FloatSpec Float_proofs FloatBound_proofs FloatUse_proofs RoundSpec Round_proofs RoundUse_proofs MultOrder_proofs MultRoundSpec.
Import ListNotations.
Local Open Scope R_scope.
Local Notation val := RoundSpec.value.

Definition suml (f : nat -> R) (l : list nat) : R := fold_right (fun j s => f j + s) 0 l.
Lemma suml_perm : forall f l l', Permutation l l' -> suml f l = suml f l'.
Proof. intros f l l' P. unfold suml. induction P; cbn [fold_right]; lra. Qed.
Lemma suml_app : forall f l l', suml f (l ++ l') = suml f l + suml f l'.
Proof. unfold suml. induction l as [|a l IH]; intros l'; cbn [app fold_right]; [lra|]. rewrite IH. lra. Qed.
Lemma suml_seq : forall f n, suml f (seq 0 n) = sumn n f.
Proof. intros f n. induction n as [|n IH]; auto. rewrite seq_S, suml_app, IH. unfold suml. cbn [fold_right sumn plus]. lra. Qed.
Lemma suml_filter : forall f P l, (forall j, P j = false -> f j = 0) -> suml f (filter P l) = suml f l.
Proof.
  intros f P l H. unfold suml. induction l as [|a l IH]; auto. cbn [filter fold_right]. destruct (P a) eqn:E; cbn [fold_right]; rewrite IH; auto. rewrite (H a E). lra.
Qed.

Lemma fold_inner : forall (e : nat -> f64) (x : list f64) js t,
  inner_product FOps (map e js) (map (fun j => nth j x fzero) js) t = Ok (fold_left (fun t j => add FOps t (mul FOps (e j) (nth j x fzero))) js t).
Proof. intros e x js. induction js as [|j js IH]; intros t; auto. cbn [map inner_product fold_left]. rewrite IH. reflexivity. Qed.
Lemma exact_map : forall (e g : nat -> f64) js, exact (map e js) (map g js) = suml (fun j => val (e j) * val (g j)) js.
Proof. intros e g js. unfold exact, suml. induction js as [|j js IH]; auto. cbn [map sum_of fold_right]. rewrite IH. reflexivity. Qed.
Lemma exact_abs_map : forall (e g : nat -> f64) js, exact_abs (map e js) (map g js) = suml (fun j => Rabs (val (e j) * val (g j))) js.
Proof. intros e g js. unfold exact_abs, suml. induction js as [|j js IH]; auto. cbn [map sum_of fold_right]. rewrite IH. reflexivity. Qed.

Lemma fzero_double : double fzero. Proof. split; [exact I|reflexivity]. Qed.
Lemma entry_double : forall A i j, double_matrix A -> double (AlgebraSpec.value fzero A i j).
Proof.
  intros A i j D. unfold AlgebraSpec.value. destruct (find_key _ _) eqn:E; [|apply fzero_double].
  apply find_key_in in E. unfold double_matrix in D. rewrite Forall_forall in D. apply (D _ E).
Qed.
Lemma coord_double : forall x j, Forall double x -> double (nth j x fzero).
Proof.
  intros x j D. destruct (Nat.lt_ge_cases j (length x)) as [L|L]; [|rewrite nth_overflow by auto; apply fzero_double].
  rewrite Forall_forall in D. apply D, nth_In, L.
Qed.
Lemma stored_touched : forall V (A : coo V) i j, is_stored A i j = true <-> touched A (Nat.min i j) (Nat.max i j).
Proof.
  intros V A i j. unfold is_stored, touched. destruct (find_key _ _) eqn:E.
  - split; auto. intros _. apply find_key_in in E. apply (in_map fst) in E. exact E.
  - apply find_key_none in E. split; [discriminate|tauto].
Qed.
Lemma row_perm : forall V (A : coo V) i js, (i < cm A)%nat -> all_diag_touched A -> NoDup js ->
  (forall j, In j js <-> (j < cm A)%nat /\ j <> i /\ touched A (Nat.min i j) (Nat.max i j)) -> Permutation (i :: js) (filter (is_stored A i) (seq 0 (cm A))).
Proof.
  intros V A i js Hi D ND H. apply NoDup_Permutation.
  - constructor; auto. intros I. apply H in I. tauto.
  - apply NoDup_filter, seq_NoDup.
  - intros j. rewrite filter_In, in_seq, stored_touched. cbn [In]. rewrite H. split.
    + intros [<-|Q]; [|intuition lia]. split; [lia|]. rewrite Nat.min_id, Nat.max_id. apply D; auto.
    + intros [Q1 Q2]. destruct (Nat.eq_dec i j); auto. right. repeat split; auto; lia.
Qed.

Lemma sym_err : forall (A : coo f64) (r x : list f64), valid_coo A -> fits A -> all_diag_touched A -> length r = cm A -> length x = cm A ->
  double_matrix A -> Forall double x ->
  exists C y, csr_build fzero A = Ok C /\ mult_sym FOps r C x = Ok y /\ length y = cm A /\
    forall i, (i < cm A)%nat -> finite (nth i y fzero) -> INR (row_count A i) * u <= / 2 ->
      double (nth i y fzero) /\
      Rabs (val (nth i y fzero) - row_exact A x i) <= 2 * INR (row_count A i) * u * row_abs A x i + 2 * INR (row_count A i) * tiny.
Proof.
  intros A r x W F D Lr Lx DA DX. destruct (order_spec FOps fzero A r x W F D Lr Lx) as [C [y [E [Ey [Ly V]]]]].
  exists C, y. repeat (split; [assumption|]). intros i Hi Fi NU. destruct (V i Hi) as [js [ND [IJ Q]]]. clear V.
  pose proof (row_perm _ A i js Hi D ND IJ) as P. pose proof (Permutation_length P) as PL. unfold row_count in *. rewrite <- PL in *. cbn [length] in *. clear PL.
  set (e := fun j => AlgebraSpec.value fzero A i j) in *. set (g := fun j => nth j x fzero).
  assert (IN : inner_product FOps (map e js) (map g js) (mul FOps (e i) (g i)) = Ok (nth i y fzero)) by (rewrite Q; apply fold_inner). clear Q.
  assert (D1 : Forall double (map e js)) by (apply Forall_forall; intros a I; apply in_map_iff in I; destruct I as [j [<- _]]; apply entry_double; auto).
  assert (D2 : Forall double (map g js)) by (apply Forall_forall; intros a I; apply in_map_iff in I; destruct I as [j [<- _]]; apply coord_double; auto).
  pose proof (inner_finite _ _ _ _ IN Fi) as FM. cbn [mul FOps] in FM, IN. change f64_prec with 53%Z in *. change f64_emax with 1024%Z in *.
  destruct (mul_err (e i) (g i) (entry_double A i i DA) (coord_double x i DX) FM) as [DM [d [t [HD [HT EM]]]]].
  destruct (inner_err _ _ _ _ D1 D2 DM IN Fi) as [DS B]. split; auto.
  fold g in B. rewrite exact_map, exact_abs_map, map_length in B. rewrite EM in B. clear EM.
  set (p := val (e i) * val (g i)) in *. set (n := length js) in *.
  assert (S1 : row_exact A x i = p + suml (fun j => val (e j) * val (g j)) js).
  { unfold row_exact. rewrite <- suml_seq, <- (suml_filter _ (is_stored A i)).
    - rewrite <- (suml_perm _ _ _ P). reflexivity.
    - intros j H. unfold entry, AlgebraSpec.value. unfold is_stored in H. destruct (find_key _ _); [discriminate|]. cbn [fzero val]. ring. }
  assert (S2 : row_abs A x i = Rabs p + suml (fun j => Rabs (val (e j) * val (g j))) js).
  { unfold row_abs. rewrite <- suml_seq, <- (suml_filter _ (is_stored A i)).
    - rewrite <- (suml_perm _ _ _ P). reflexivity.
    - intros j H. unfold entry, AlgebraSpec.value. unfold is_stored in H. destruct (find_key _ _); [discriminate|]. cbn [fzero val]. rewrite Rmult_0_l. apply Rabs_R0. }
  rewrite S1, S2. clear S1 S2.
  assert (SP : 0 <= suml (fun j => Rabs (val (e j) * val (g j))) js) by (rewrite <- exact_abs_map; apply exact_abs_pos).
  set (Sx := suml (fun j => val (e j) * val (g j)) js) in *. set (Sa := suml (fun j => Rabs (val (e j) * val (g j))) js) in *.
  pose proof u_pos as U. pose proof tiny_pos as TP. pose proof (pow_bound _ NU) as PB. pose proof (pow_g n) as G.
  change ((1 + u) ^ S n) with ((1 + u) * (1 + u) ^ n) in *. set (h := (1 + u) ^ n) in *.
  assert (Y : val (nth i y fzero) - (p + Sx) = (val (nth i y fzero) - (p * (1 + d) + t + Sx)) + (p * d + t)) by ring. rewrite Y. clear Y.
  eapply Rle_trans; [apply Rabs_triang|].
  assert (Z1 : Rabs (p * d + t) <= u * Rabs p + tiny).
  { eapply Rle_trans; [apply Rabs_triang|]. rewrite Rabs_mult. assert (Rabs p * Rabs d <= Rabs p * u) by (apply Rmult_le_compat_l; auto; apply Rabs_pos). lra. }
  assert (Z2 : Rabs (p * (1 + d) + t) <= (1 + u) * Rabs p + tiny).
  { replace (p * (1 + d) + t) with (p + (p * d + t)) by ring. eapply Rle_trans; [apply Rabs_triang|]. lra. }
  assert (Z3 : (h - 1) * Rabs (p * (1 + d) + t) <= (h - 1) * ((1 + u) * Rabs p + tiny)) by (apply Rmult_le_compat_l; lra).
  pose proof (Rabs_pos p) as PP. pose proof (pos_INR n) as PN. rewrite S_INR in *.
  assert (H2 : h <= 2) by (assert (h <= (1 + u) * h) by nra; lra).
  assert (Z4 : ((1 + u) * h - 1) * (Rabs p + Sa) <= 2 * (INR n + 1) * u * (Rabs p + Sa)) by (apply Rmult_le_compat_r; lra).
  assert (Z5 : INR n * (tiny * h) <= INR n * (tiny * 2)) by (apply Rmult_le_compat_l; auto; apply Rmult_le_compat_l; lra).
  assert (Z6 : (h - 1) * tiny <= tiny) by nra.
  eapply Rle_trans; [apply Rplus_le_compat; [exact B|exact Z1]|]. nra.
Qed.
