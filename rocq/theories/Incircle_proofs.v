(** The first stage of the mesh generator's incircle test in binary64. *)
From Coq Require Import List Arith ZArith NArith Bool Lia Reals Lra Psatz.
From Coq Require Import Floats.SpecFloat.
From Flocq Require Import Core.Raux.
From Verif Require Import Base GeometryModel GeometrySpec FloatSpec Float_proofs FloatBound_proofs RoundSpec Round_proofs RoundUse_proofs PredicateModel PredicateSpec Predicate_proofs.
Import ListNotations.
Local Open Scope R_scope.
Local Notation prec := 53%Z.
Local Notation emax := 1024%Z.

Lemma mul_err0 : forall x y, double x -> double y -> finite (SFmul prec emax x y) -> double (SFmul prec emax x y) /\
  exists d e, Rabs d <= u /\ Rabs e <= tiny /\ (value x * value y = 0 -> e = 0) /\ value (SFmul prec emax x y) = value x * value y * (1 + d) + e.
Proof.
  intros x y DX DY F. destruct (Req_dec (value x * value y) 0) as [Z|Z].
  - destruct (mul_norm x y DX DY F (or_introl Z)) as [D [d [H E]]]. split; auto. exists d, 0. rewrite Rabs_R0. pose proof tiny_pos. repeat split; auto; lra.
  - destruct (mul_err x y DX DY F) as [D [d [e [H [He E]]]]]. split; auto. exists d, e. repeat split; auto. tauto.
Qed.

Definition boundI : R := (10 + 96 * u) * u.
Lemma boundI_value : value (S754_finite false 5629499534213126 (-102)) = boundI.
Proof.
  unfold value, boundI. assert (P : powerRZ 2 (-102) = 16 * (u * u)).
  { unfold u. rewrite <- powerRZ_add by lra. change (-53 + -53)%Z with (-106)%Z. change (-102)%Z with (4 + -106)%Z. rewrite powerRZ_add by lra. change (powerRZ 2 4) with (2 * (2 * (2 * (2 * 1)))). ring. }
  rewrite P, u_num. lra.
Qed.

(** ** factors *)
Lemma rel_mul : forall a b x y, 0 <= x -> 0 <= y -> Rabs (a - 1) <= x -> Rabs (b - 1) <= y -> Rabs (a * b - 1) <= (1 + x) * (1 + y) - 1.
Proof.
  intros a b x y X Y HA HB. replace (a * b - 1) with ((a - 1) * (b - 1) + (a - 1) + (b - 1)) by ring.
  eapply Rle_trans; [apply Rabs_triang|]. eapply Rle_trans; [apply Rplus_le_compat_r, Rabs_triang|]. rewrite Rabs_mult.
  assert (Rabs (a - 1) * Rabs (b - 1) <= x * y) by (apply Rmult_le_compat; auto; apply Rabs_pos). lra.
Qed.
Definition kappa7 : R := 7 * u + 29 * (u * u).
Lemma inv_near : forall f h, (1 - u) ^ 3 <= f <= (1 + u) ^ 3 -> (1 - u) ^ 4 <= h <= (1 + u) ^ 4 -> Rabs (/ (h * f) - 1) <= kappa7.
Proof.
  intros f h F H. pose proof u_small as U. assert (F3 : 0 < (1 - u) ^ 3) by (apply pow_lt; lra). assert (H4 : 0 < (1 - u) ^ 4) by (apply pow_lt; lra).
  assert (B : (1 - u) ^ 4 * (1 - u) ^ 3 <= h * f <= (1 + u) ^ 4 * (1 + u) ^ 3) by (apply mul_between; lra).
  assert (P : 0 < h * f) by (apply Rmult_lt_0_compat; lra).
  assert (L : 1 <= (1 + kappa7) * ((1 - u) ^ 4 * (1 - u) ^ 3)) by (unfold kappa7; rewrite u_num; lra).
  assert (G : (1 - kappa7) * ((1 + u) ^ 4 * (1 + u) ^ 3) <= 1) by (unfold kappa7; rewrite u_num; lra).
  assert (K : 0 < kappa7 < 1) by (unfold kappa7; nra).
  assert (E : / (h * f) * (h * f) = 1) by (apply Rinv_l; lra). set (w := / (h * f)) in *. set (v := h * f) in *.
  apply Rabs_le. split.
  - assert (1 - kappa7 <= w); [|lra]. apply Rmult_le_reg_r with v; auto. rewrite E. eapply Rle_trans; [|exact G]. apply Rmult_le_compat_l; lra.
  - assert (w <= 1 + kappa7); [|lra]. apply Rmult_le_reg_r with v; auto. rewrite E. eapply Rle_trans; [exact L|]. apply Rmult_le_compat_l; lra.
Qed.

(** one of the three terms: A is the rounded lift, a and b the rounded products; S, P and Q are the exact ones *)
Record term (A a b S P Q t w : R) : Prop := {
  t_pos : 0 <= A;
  t_exact : exists f g h, (1 - u) ^ 3 <= f <= (1 + u) ^ 3 /\ (1 - u) ^ 3 <= g <= (1 + u) ^ 3 /\ (1 - u) ^ 4 <= h <= (1 + u) ^ 4 /\ a = P * f /\ b = Q * g /\ A = S * h;
  t_val : exists th e, Rabs th <= (1 + u) * (1 + u) - 1 /\ Rabs e <= tiny /\ (A * (Rabs a + Rabs b) = 0 -> e = 0) /\ t = A * (a - b) * (1 + th) + e;
  t_mag : exists g e, (1 - u) * (1 - u) <= g <= (1 + u) * (1 + u) /\ Rabs e <= tiny /\ (A * (Rabs a + Rabs b) = 0 -> e = 0) /\ w = A * (Rabs a + Rabs b) * g + e;
  t_low : A * (Rabs a + Rabs b) = 0 \/ powerRZ 2 (-900) <= A * (Rabs a + Rabs b)
}.
Lemma term_swap : forall A a b S P Q t w, term A a b S P Q t w -> term A b a S Q P (- t) w.
Proof.
  intros A a b S P Q t w [T1 [f [g [h [F [G [H [Ea [Eb EA]]]]]]]] [th [e [Ht [He [Hz E]]]]] T4 T5]. rewrite (Rplus_comm (Rabs a)) in *.
  split; auto; [exists g, f, h; auto 10|]. exists th, (- e). rewrite Rabs_Ropp. repeat split; auto; [|rewrite E; ring]. intros Z. rewrite (Hz Z). ring.
Qed.
Lemma one_factor : forall A x S P f h, x = P * f -> A = S * h -> (1 - u) ^ 3 <= f <= (1 + u) ^ 3 -> (1 - u) ^ 4 <= h <= (1 + u) ^ 4 -> Rabs (S * P - A * x) <= kappa7 * Rabs (A * x).
Proof.
  intros A x S P f h Ex EA F H. pose proof u_small as U. assert (F3 : 0 < (1 - u) ^ 3) by (apply pow_lt; lra). assert (H4 : 0 < (1 - u) ^ 4) by (apply pow_lt; lra).
  assert (Q : S * P = A * x * / (h * f)) by (rewrite EA, Ex; field; lra). rewrite Q.
  replace (A * x * / (h * f) - A * x) with ((/ (h * f) - 1) * (A * x)) by ring. rewrite Rabs_mult. apply Rmult_le_compat_r; [apply Rabs_pos|]. apply inv_near; auto.
Qed.
Lemma term_exact : forall A a b S P Q t w, term A a b S P Q t w -> Rabs (S * (P - Q) - A * (a - b)) <= kappa7 * (A * (Rabs a + Rabs b)).
Proof.
  intros A a b S P Q t w [T1 [f [g [h [F [G [H [Ea [Eb EA]]]]]]]] _ _ _].
  pose proof (one_factor A a S P f h Ea EA F H) as X. pose proof (one_factor A b S Q g h Eb EA G H) as Y.
  replace (S * (P - Q) - A * (a - b)) with ((S * P - A * a) + - (S * Q - A * b)) by ring. eapply Rle_trans; [apply Rabs_triang|]. rewrite Rabs_Ropp.
  rewrite Rabs_mult, (Rabs_right A) in X, Y by lra. lra.
Qed.

(** the three terms together *)
Lemma tiny_cmp : 12 * tiny <= u * u * powerRZ 2 (-900).
Proof.
  assert (E : u * u * powerRZ 2 (-900) = powerRZ 2 69 * tiny) by (unfold u, tiny; rewrite <- !powerRZ_add by lra; apply f_equal; reflexivity). rewrite E.
  apply Rmult_le_compat_r; [apply Rlt_le, tiny_pos|]. apply Rle_trans with (powerRZ 2 4); [change (powerRZ 2 4) with (2 * (2 * (2 * (2 * 1)))); lra|].
  change (powerRZ 2 69) with (2 ^ 69). change (powerRZ 2 4) with (2 ^ 4). apply Rle_pow; [lra|lia].
Qed.

Definition e3 : R := (1 + u) * (1 + u) * (1 + u) - 1.
Lemma e3_bounds : 0 <= (1 + u) * (1 + u) - 1 <= e3.
Proof. pose proof u_small. unfold e3. split; nra. Qed.
Lemma rel3 : forall th d, Rabs th <= (1 + u) * (1 + u) - 1 -> Rabs d <= u -> Rabs ((1 + th) * (1 + d) - 1) <= e3.
Proof.
  intros th d H D. pose proof u_small as U. pose proof e3_bounds as E. unfold e3.
  eapply Rle_trans; [apply (rel_mul _ _ ((1 + u) * (1 + u) - 1) u)|]; [lra|lra|replace (1 + th - 1) with th by ring; auto|replace (1 + d - 1) with d by ring; auto|lra].
Qed.
Lemma small_mul : forall q k m e, Rabs q <= m -> Rabs k <= e -> Rabs (q * k) <= m * e.
Proof. intros. rewrite Rabs_mult. apply Rmult_le_compat; auto; apply Rabs_pos. Qed.
Lemma tails : forall e1 e2 e3 d, Rabs e1 <= tiny -> Rabs e2 <= tiny -> Rabs e3 <= tiny -> Rabs d <= u -> Rabs ((e1 + e2) * (1 + d) + e3) <= 4 * tiny.
Proof.
  intros e1 e2 e3 d H1 H2 H3 D. pose proof u_small as U. pose proof tiny_pos as TP.
  assert (A : Rabs (e1 + e2) <= 2 * tiny) by (eapply Rle_trans; [apply Rabs_triang|]; lra).
  assert (B : Rabs (1 + d) <= 1 + u) by (eapply Rle_trans; [apply Rabs_triang|]; rewrite Rabs_R1; lra).
  pose proof (small_mul _ _ _ _ A B) as C. eapply Rle_trans; [apply Rabs_triang|]. assert (2 * tiny * (1 + u) <= 3 * tiny) by nra. lra.
Qed.
Lemma det_part : forall q1 q2 q3 m1 m2 m3 th1 th2 th3 e1 e2 e4 d1, Rabs q1 <= m1 -> Rabs q2 <= m2 -> Rabs q3 <= m3 ->
  Rabs th1 <= (1 + u) * (1 + u) - 1 -> Rabs th2 <= (1 + u) * (1 + u) - 1 -> Rabs th3 <= (1 + u) * (1 + u) - 1 ->
  Rabs e1 <= tiny -> Rabs e2 <= tiny -> Rabs e4 <= tiny -> Rabs d1 <= u ->
  Rabs ((q1 * (1 + th1) + e1 + (q2 * (1 + th2) + e2)) * (1 + d1) + (q3 * (1 + th3) + e4) - (q1 + q2 + q3)) <= e3 * (m1 + m2 + m3) + 4 * tiny.
Proof.
  intros q1 q2 q3 m1 m2 m3 th1 th2 th3 e1 e2 e4 d1 Q1 Q2 Q3 T1 T2 T3 H1 H2 H3 D.
  replace ((q1 * (1 + th1) + e1 + (q2 * (1 + th2) + e2)) * (1 + d1) + (q3 * (1 + th3) + e4) - (q1 + q2 + q3)) with
    (q1 * ((1 + th1) * (1 + d1) - 1) + (q2 * ((1 + th2) * (1 + d1) - 1) + (q3 * th3 + ((e1 + e2) * (1 + d1) + e4)))) by ring.
  pose proof e3_bounds as EB. assert (T3' : Rabs th3 <= e3) by lra.
  pose proof (small_mul _ _ _ _ Q1 (rel3 _ _ T1 D)) as Y1. pose proof (small_mul _ _ _ _ Q2 (rel3 _ _ T2 D)) as Y2. pose proof (small_mul _ _ _ _ Q3 T3') as Y3.
  pose proof (tails _ _ _ _ H1 H2 H3 D) as Y4.
  eapply Rle_trans; [apply Rabs_triang|]. eapply Rle_trans; [apply Rplus_le_compat_l, Rabs_triang|]. eapply Rle_trans; [apply Rplus_le_compat_l, Rplus_le_compat_l, Rabs_triang|].
  clear - Y1 Y2 Y3 Y4. lra.
Qed.
Lemma mult_low : forall m g x, 0 <= m -> x <= g -> x * m <= m * g.
Proof. intros. rewrite (Rmult_comm x). apply Rmult_le_compat_l; auto. Qed.
Lemma perm_part : forall m1 m2 m3 g1 g2 g3 h1 h2 h3 c1 c2, 0 <= m1 -> 0 <= m2 -> 0 <= m3 ->
  (1 - u) * (1 - u) <= g1 -> (1 - u) * (1 - u) <= g2 -> (1 - u) * (1 - u) <= g3 -> Rabs h1 <= tiny -> Rabs h2 <= tiny -> Rabs h3 <= tiny -> Rabs c1 <= u -> Rabs c2 <= u ->
  (1 - u) ^ 4 * (m1 + m2 + m3) - 5 * tiny <= ((m1 * g1 + h1 + (m2 * g2 + h2)) * (1 + c1) + (m3 * g3 + h3)) * (1 + c2).
Proof.
  intros m1 m2 m3 g1 g2 g3 h1 h2 h3 c1 c2 M1 M2 M3 G1 G2 G3 H1 H2 H3 C1 C2. pose proof u_small as U. pose proof tiny_pos as TP.
  pose proof (tails _ _ _ _ H1 H2 H3 C1) as TT. pose proof (near_one c1 C1) as O1. pose proof (near_one c2 C2) as O2.
  assert (CC : (1 - u) * (1 - u) <= (1 + c1) * (1 + c2)) by (apply Rmult_le_compat; lra).
  assert (UU : 0 <= (1 - u) * (1 - u)) by nra.
  assert (F : (1 - u) ^ 4 = (1 - u) * (1 - u) * ((1 - u) * (1 - u))) by ring.
  assert (R1 : (1 - u) ^ 4 <= g1 * ((1 + c1) * (1 + c2))) by (rewrite F; apply Rmult_le_compat; lra).
  assert (R2 : (1 - u) ^ 4 <= g2 * ((1 + c1) * (1 + c2))) by (rewrite F; apply Rmult_le_compat; lra).
  assert (R3 : (1 - u) ^ 4 <= g3 * (1 + c2)).
  { rewrite F. apply Rmult_le_compat; auto. eapply Rle_trans; [|apply O2]. nra. }
  assert (R4 : - (5 * tiny) <= ((h1 + h2) * (1 + c1) + h3) * (1 + c2)).
  { apply Rabs_le_inv in TT. set (y := (h1 + h2) * (1 + c1) + h3) in *. clearbody y. clear - TT O2 U TP. nra. }
  replace (((m1 * g1 + h1 + (m2 * g2 + h2)) * (1 + c1) + (m3 * g3 + h3)) * (1 + c2)) with
    (m1 * (g1 * ((1 + c1) * (1 + c2))) + m2 * (g2 * ((1 + c1) * (1 + c2))) + m3 * (g3 * (1 + c2)) + ((h1 + h2) * (1 + c1) + h3) * (1 + c2)) by ring.
  pose proof (mult_low _ _ _ M1 R1) as Y1. pose proof (mult_low _ _ _ M2 R2) as Y2. pose proof (mult_low _ _ _ M3 R3) as Y3. clear - Y1 Y2 Y3 R4. lra.
Qed.
Lemma boundI_bounds : 0 < boundI <= / 90.
Proof. pose proof u_small. unfold boundI. nra. Qed.
Lemma num1 : kappa7 + e3 + u * u <= boundI * ((1 - u) ^ 4 * (1 - u)) * (1 - u).
Proof. unfold kappa7, boundI, e3. rewrite u_num. lra. Qed.
Lemma num2 : 8 * u <= boundI * ((1 - u) ^ 4 * (1 - u)).
Proof. unfold boundI. rewrite u_num. lra. Qed.
Lemma err_part : forall M perm c3 e, 0 <= M -> 0 <= perm -> (1 - u) ^ 4 * M - 5 * tiny <= perm -> Rabs c3 <= u -> Rabs e <= tiny ->
  boundI * ((1 - u) ^ 4 * (1 - u)) * M - 2 * tiny <= boundI * perm * (1 + c3) + e.
Proof.
  intros M perm c3 e HM HP PL C3 He. pose proof u_small as U. pose proof tiny_pos as TP. pose proof boundI_bounds as BI. pose proof (near_one c3 C3) as O3. apply Rabs_le_inv in He.
  assert (G : boundI * perm * (1 - u) <= boundI * perm * (1 + c3)) by (apply Rmult_le_compat_l; [apply Rmult_le_pos|]; lra).
  assert (G2 : boundI * (1 - u) * ((1 - u) ^ 4 * M - 5 * tiny) <= boundI * (1 - u) * perm) by (apply Rmult_le_compat_l; [apply Rmult_le_pos; lra|exact PL]).
  assert (G4 : boundI * (1 - u) <= / 90 * 1) by (apply Rmult_le_compat; lra).
  assert (G3 : boundI * (1 - u) * (5 * tiny) <= / 90 * 1 * (5 * tiny)) by (apply Rmult_le_compat_r; lra). lra.
Qed.
Lemma last_part : forall M K det det' X q d2, 0 < M -> 12 * tiny <= u * u * M -> K = boundI * ((1 - u) ^ 4 * (1 - u)) -> K * M - 2 * tiny < det -> det = det' * (1 + d2) -> Rabs d2 <= u ->
  Rabs (det' - q) <= e3 * M + 4 * tiny -> Rabs (X - q) <= kappa7 * M -> 0 < det /\ 0 < X.
Proof.
  intros M K det det' X q d2 MP MT EK H ED D2 Bd Bx. pose proof u_small as U. pose proof tiny_pos as TP. pose proof (near_one d2 D2) as N2.
  pose proof num1 as N1. pose proof num2 as N8. rewrite <- EK in N1, N8. clear EK.
  assert (UU : u * u * M <= u * M) by (apply Rmult_le_compat_r; nra). assert (UM : 0 < u * M) by (apply Rmult_lt_0_compat; lra).
  assert (KM : 8 * u * M <= K * M) by (apply Rmult_le_compat_r; lra).
  assert (LB : 0 < K * M - 2 * tiny) by lra. assert (PD : 0 < det) by lra. split; auto.
  assert (PD' : 0 < det') by (rewrite ED in PD; clear - PD N2 U; nra).
  assert (DD : (K * M - 2 * tiny) * (1 - u) <= det').
  { assert (Y1 : (K * M - 2 * tiny) * (1 - u) <= det * (1 - u)) by (apply Rmult_le_compat_r; lra).
    assert (Y2 : det' * ((1 + d2) * (1 - u)) <= det' * 1). { apply Rmult_le_compat_l; [lra|]. clear - N2 U. nra. }
    rewrite ED in Y1. lra. }
  assert (FIN : (kappa7 + e3 + u * u) * M <= K * (1 - u) * M) by (apply Rmult_le_compat_r; lra).
  assert (TU : 2 * tiny * (1 - u) <= 2 * tiny) by (clear - TP U; nra).
  apply Rabs_le_inv in Bd. apply Rabs_le_inv in Bx. lra.
Qed.
Lemma abs_zero : forall q, Rabs q <= 0 -> q = 0.
Proof. intros q H. destruct (Req_dec q 0) as [|N]; auto. apply Rabs_no_R0 in N. pose proof (Rabs_pos q). lra. Qed.
Lemma q_bound : forall A a b, 0 <= A -> Rabs (A * (a - b)) <= A * (Rabs a + Rabs b).
Proof. intros A a b H. rewrite Rabs_mult, (Rabs_right A) by lra. apply Rmult_le_compat_l; auto. pose proof (Rabs_triang a (- b)) as Y. rewrite Rabs_Ropp in Y. exact Y. Qed.
Lemma m_pos : forall A a b, 0 <= A -> 0 <= A * (Rabs a + Rabs b).
Proof. intros A a b H. apply Rmult_le_pos; auto. pose proof (Rabs_pos a). pose proof (Rabs_pos b). lra. Qed.
Lemma sum_low : forall m1 m2 m3 p, 0 < p -> 0 <= m1 -> 0 <= m2 -> 0 <= m3 -> m1 = 0 \/ p <= m1 -> m2 = 0 \/ p <= m2 -> m3 = 0 \/ p <= m3 -> m1 + m2 + m3 <> 0 -> p <= m1 + m2 + m3.
Proof. intros. lra. Qed.
Lemma icc_core : forall A1 a1 b1 S1 P1 Q1 t1 w1 A2 a2 b2 S2 P2 Q2 t2 w2 A3 a3 b3 S3 P3 Q3 t3 w3 d1 d2 c1 c2 c3 e,
  term A1 a1 b1 S1 P1 Q1 t1 w1 -> term A2 a2 b2 S2 P2 Q2 t2 w2 -> term A3 a3 b3 S3 P3 Q3 t3 w3 ->
  Rabs d1 <= u -> Rabs d2 <= u -> Rabs c1 <= u -> Rabs c2 <= u -> Rabs c3 <= u -> Rabs e <= tiny ->
  let perm := ((w1 + w2) * (1 + c1) + w3) * (1 + c2) in (boundI * perm = 0 -> e = 0) ->
  let det := ((t1 + t2) * (1 + d1) + t3) * (1 + d2) in
  boundI * perm * (1 + c3) + e < det -> 0 < det /\ 0 < S1 * (P1 - Q1) + S2 * (P2 - Q2) + S3 * (P3 - Q3).
Proof.
  intros A1 a1 b1 S1 P1 Q1 t1 w1 A2 a2 b2 S2 P2 Q2 t2 w2 A3 a3 b3 S3 P3 Q3 t3 w3 d1 d2 c1 c2 c3 e T1 T2 T3 D1 D2 C1 C2 C3 He perm Ze det H.
  pose proof (term_exact _ _ _ _ _ _ _ _ T1) as X1. pose proof (term_exact _ _ _ _ _ _ _ _ T2) as X2. pose proof (term_exact _ _ _ _ _ _ _ _ T3) as X3.
  destruct T1 as [Pos1 _ [th1 [e1 [Ht1 [He1 [Hz1 E1]]]]] [g1 [h1 [G1 [Hh1 [Zh1 W1]]]]] L1].
  destruct T2 as [Pos2 _ [th2 [e2 [Ht2 [He2 [Hz2 E2]]]]] [g2 [h2 [G2 [Hh2 [Zh2 W2]]]]] L2].
  destruct T3 as [Pos3 _ [th3 [e4 [Ht3 [He3 [Hz3 E3]]]]] [g3 [h3 [G3 [Hh3 [Zh3 W3]]]]] L3].
  pose proof (q_bound A1 a1 b1 Pos1) as q1b. pose proof (q_bound A2 a2 b2 Pos2) as q2b. pose proof (q_bound A3 a3 b3 Pos3) as q3b.
  pose proof (m_pos A1 a1 b1 Pos1) as M1. pose proof (m_pos A2 a2 b2 Pos2) as M2. pose proof (m_pos A3 a3 b3 Pos3) as M3.
  set (m1 := A1 * (Rabs a1 + Rabs b1)) in *. set (m2 := A2 * (Rabs a2 + Rabs b2)) in *. set (m3 := A3 * (Rabs a3 + Rabs b3)) in *.
  set (q1 := A1 * (a1 - b1)) in *. set (q2 := A2 * (a2 - b2)) in *. set (q3 := A3 * (a3 - b3)) in *.
  set (x1 := S1 * (P1 - Q1)) in *. set (x2 := S2 * (P2 - Q2)) in *. set (x3 := S3 * (P3 - Q3)) in *.
  clearbody m1 m2 m3 q1 q2 q3 x1 x2 x3. clear A1 A2 A3 a1 a2 a3 b1 b2 b3 S1 S2 S3 P1 P2 P3 Q1 Q2 Q3 Pos1 Pos2 Pos3.
  destruct (Req_dec (m1 + m2 + m3) 0) as [Z|Z].
  - exfalso. assert (Zs : m1 = 0 /\ m2 = 0 /\ m3 = 0) by (clear - Z M1 M2 M3; lra). destruct Zs as [Z1 [Z2 Z3]].
    rewrite Z1 in q1b. rewrite Z2 in q2b. rewrite Z3 in q3b. apply abs_zero in q1b. apply abs_zero in q2b. apply abs_zero in q3b.
    assert (U4 : perm = 0) by (unfold perm; rewrite W1, W2, W3, (Zh1 Z1), (Zh2 Z2), (Zh3 Z3), Z1, Z2, Z3; ring).
    assert (U5 : det = 0) by (unfold det; rewrite E1, E2, E3, (Hz1 Z1), (Hz2 Z2), (Hz3 Z3), q1b, q2b, q3b; ring).
    rewrite U4 in H, Ze. rewrite (Ze ltac:(ring)), U5 in H. clear - H. lra.
  - pose proof (sum_low m1 m2 m3 _ (pow2_pos (-900)) M1 M2 M3 L1 L2 L3 Z) as ML. pose proof (pow2_pos (-900)) as P9. pose proof u_small as U. pose proof tiny_pos as TP.
    assert (MT : 12 * tiny <= u * u * (m1 + m2 + m3)) by (eapply Rle_trans; [apply tiny_cmp|]; apply Rmult_le_compat_l; [clear - U; nra|exact ML]).
    assert (PL : (1 - u) ^ 4 * (m1 + m2 + m3) - 5 * tiny <= perm) by (unfold perm; rewrite W1, W2, W3; apply perm_part; tauto).
    assert (MP : 0 < m1 + m2 + m3) by (clear - ML P9; lra).
    assert (PP : 0 <= perm).
    { assert (F4 : / 2 <= (1 - u) ^ 4) by (rewrite u_num; lra). assert (Y : / 2 * (m1 + m2 + m3) <= (1 - u) ^ 4 * (m1 + m2 + m3)) by (apply Rmult_le_compat_r; lra).
      assert (Y2 : u * u * (m1 + m2 + m3) <= / 10 * (m1 + m2 + m3)) by (apply Rmult_le_compat_r; [lra|]; clear - U; nra). clear - PL MT Y Y2 TP. lra. }
    pose proof (err_part _ perm c3 e (Rlt_le _ _ MP) PP PL C3 He) as EL.
    apply (last_part (m1 + m2 + m3) _ det ((t1 + t2) * (1 + d1) + t3) (x1 + x2 + x3) (q1 + q2 + q3) d2 MP MT eq_refl); auto.
    + clear - EL H. lra.
    + rewrite E1, E2, E3. apply det_part; auto.
    + replace (x1 + x2 + x3 - (q1 + q2 + q3)) with ((x1 - q1) + ((x2 - q2) + (x3 - q3))) by ring.
      eapply Rle_trans; [apply Rabs_triang|]. eapply Rle_trans; [apply Rplus_le_compat_l, Rabs_triang|]. clear - X1 X2 X3. lra.
Qed.

(** ** the rounded terms *)
Lemma lift_ok : forall p d : vec FOps, in_range 200 200 p -> in_range 200 200 d ->
  let x := SFsub prec emax (vx p) (vx d) in let y := SFsub prec emax (vy p) (vy d) in
  let A := SFadd prec emax (SFmul prec emax x x) (SFmul prec emax y y) in
  let S := (value (vx p) - value (vx d)) * (value (vx p) - value (vx d)) + (value (vy p) - value (vy d)) * (value (vy p) - value (vy d)) in
  double A /\ below 407 A /\ 0 <= value A /\ (exists h, (1 - u) ^ 4 <= h <= (1 + u) ^ 4 /\ value A = S * h) /\ (value A = 0 \/ powerRZ 2 (-404) <= value A).
Proof.
  intros p d [[Dx Dy] [[Bx By] [Mx My]]] [[Ex Ey] [[Cx Cy] [Nx Ny]]] x y A S.
  destruct (prod_ok 200 200 (vx p) (vx d) (vx p) (vx d)) as [D1 [B1 [f [F [E1 L1]]]]]; auto; try lia.
  destruct (prod_ok 200 200 (vy p) (vy d) (vy p) (vy d)) as [D2 [B2 [g [G [E2 L2]]]]]; auto; try lia.
  change (2 * 200 + 5)%Z with 405%Z in *. fold x in D1, B1, E1, L1. fold y in D2, B2, E2, L2.
  assert (BA : below 407 A) by (apply (add_below 405); auto; lia).
  destruct (add_err _ _ D1 D2 (below_finite _ _ BA)) as [DA [c [C EA]]]. fold A in DA, EA. split; [exact DA|]. split; [exact BA|].
  pose proof u_small as U. pose proof (near_one c C) as NC. assert (P3 : 0 < (1 - u) ^ 3) by (apply pow_lt; lra).
  unfold S. set (X := (value (vx p) - value (vx d)) * (value (vx p) - value (vx d))) in *. set (Y := (value (vy p) - value (vy d)) * (value (vy p) - value (vy d))) in *.
  assert (PX : 0 <= X) by (unfold X; generalize (value (vx p) - value (vx d)); intros; nra). assert (PY : 0 <= Y) by (unfold Y; generalize (value (vy p) - value (vy d)); intros; nra).
  set (vX := value (SFmul prec emax x x)) in *. set (vY := value (SFmul prec emax y y)) in *. clearbody vX vY X Y.
  assert (QX : 0 <= vX) by (rewrite E1; apply Rmult_le_pos; lra). assert (QY : 0 <= vY) by (rewrite E2; apply Rmult_le_pos; lra).
  assert (PA : 0 <= value A) by (rewrite EA; apply Rmult_le_pos; lra). split; [exact PA|]. split.
  - destruct (Req_dec (X + Y) 0) as [Z|Z].
    + exists 1. assert (P1 : (1 - u) ^ 4 <= 1 <= (1 + u) ^ 4) by (rewrite u_num; lra). split; [exact P1|].
      assert (Z1 : X = 0) by lra. assert (Z2 : Y = 0) by lra. rewrite EA, E1, E2, Z1, Z2. ring.
    + assert (PS : 0 < X + Y) by lra. exists (value A / (X + Y)). split; [|field; lra].
      assert (LO : (X + Y) * (1 - u) ^ 3 <= vX + vY) by (rewrite E1, E2; assert (X * (1 - u) ^ 3 <= X * f) by (apply Rmult_le_compat_l; lra); assert (Y * (1 - u) ^ 3 <= Y * g) by (apply Rmult_le_compat_l; lra); lra).
      assert (HI : vX + vY <= (X + Y) * (1 + u) ^ 3) by (rewrite E1, E2; assert (X * f <= X * (1 + u) ^ 3) by (apply Rmult_le_compat_l; lra); assert (Y * g <= Y * (1 + u) ^ 3) by (apply Rmult_le_compat_l; lra); lra).
      assert (BT : (X + Y) * (1 - u) ^ 3 * (1 - u) <= value A <= (X + Y) * (1 + u) ^ 3 * (1 + u)).
      { rewrite EA. apply mul_between; [apply Rmult_le_pos; lra|lra|lra|lra]. }
      split; apply Rmult_le_reg_r with (X + Y); auto; unfold Rdiv; rewrite (Rmult_assoc (value A)), Rinv_l, Rmult_1_r by lra.
      * replace ((1 - u) ^ 4 * (X + Y)) with ((X + Y) * (1 - u) ^ 3 * (1 - u)) by ring. lra.
      * replace ((1 + u) ^ 4 * (X + Y)) with ((X + Y) * (1 + u) ^ 3 * (1 + u)) by ring. lra.
  - assert (K : powerRZ 2 (- (2 * 200)) = 16 * powerRZ 2 (-404)).
    { change (- (2 * 200))%Z with (4 + -404)%Z. rewrite powerRZ_add by lra. change (powerRZ 2 4) with (2 * (2 * (2 * (2 * 1)))). ring. }
    rewrite K in L1, L2. clear K. rewrite Rabs_right in L1, L2 by lra. pose proof (pow2_pos (-404)) as P4. set (k := powerRZ 2 (-404)) in *. clearbody k.
    assert (SS : vX + vY = 0 \/ 2 * k <= vX + vY) by (clear - L1 L2 QX QY P4; lra).
    rewrite EA. destruct SS as [SS|SS]; [left; rewrite SS; ring|right]. clear - SS NC U P4. nra.
Qed.

Lemma term_ok : forall A a b S P Q, double A -> double a -> double b -> below 407 A -> below 405 a -> below 405 b -> 0 <= value A ->
  (exists h, (1 - u) ^ 4 <= h <= (1 + u) ^ 4 /\ value A = S * h) -> (exists f, (1 - u) ^ 3 <= f <= (1 + u) ^ 3 /\ value a = P * f) -> (exists g, (1 - u) ^ 3 <= g <= (1 + u) ^ 3 /\ value b = Q * g) ->
  (value A = 0 \/ powerRZ 2 (-404) <= value A) -> (value a = 0 \/ powerRZ 2 (- (2 * 200)) / 8 <= Rabs (value a)) -> (value b = 0 \/ powerRZ 2 (- (2 * 200)) / 8 <= Rabs (value b)) ->
  let t := SFmul prec emax A (SFsub prec emax a b) in let w := SFmul prec emax (SFadd prec emax (SFabs a) (SFabs b)) A in
  double t /\ below 815 t /\ double w /\ below 815 w /\ term (value A) (value a) (value b) S P Q (value t) (value w).
Proof.
  intros A a b S P Q DA Da Db BA Ba Bb PA [h [H EA]] [f [F Ea]] [g [G Eb]] LA La Lb t w.
  assert (Bs : below 407 (SFsub prec emax a b)) by (apply (sub_below 405); auto; lia).
  destruct (sub_err a b Da Db (below_finite _ _ Bs)) as [Ds [d [Hd Es]]].
  assert (Bt : below 815 t) by (apply (mul_below 407 407); auto; lia).
  destruct (mul_err0 A _ DA Ds (below_finite _ _ Bt)) as [Dt [d' [e [Hd' [He [Ze Et]]]]]]. fold t in Dt, Et.
  assert (Baa : below 405 (SFabs a)) by (destruct a; auto). assert (Bab : below 405 (SFabs b)) by (destruct b; auto).
  assert (Bp : below 407 (SFadd prec emax (SFabs a) (SFabs b))) by (apply (add_below 405); auto; lia).
  destruct (add_err _ _ (abs_double _ Da) (abs_double _ Db) (below_finite _ _ Bp)) as [Dp [c [Hc Ep]]]. rewrite !abs_value in Ep.
  assert (Bw : below 815 w) by (apply (mul_below 407 407); auto; lia).
  destruct (mul_err0 _ A Dp DA (below_finite _ _ Bw)) as [Dw [c' [e' [Hc' [He' [Ze' Ew]]]]]]. fold w in Dw, Ew.
  repeat (split; [assumption|]). pose proof u_small as U.
  assert (MZ : value A * (Rabs (value a) + Rabs (value b)) = 0 -> value A = 0 \/ (value a = 0 /\ value b = 0)).
  { intros Z. apply Rmult_integral in Z. destruct Z as [Z|Z]; auto. right. pose proof (Rabs_pos (value a)). pose proof (Rabs_pos (value b)). split; apply abs_zero; lra. }
  split; auto.
  - exists f, g, h. repeat split; try apply F; try apply G; try apply H; auto.
  - exists ((1 + d) * (1 + d') - 1), e. repeat split; auto.
    + apply rel_mul; try lra; [replace (1 + d - 1) with d by ring|replace (1 + d' - 1) with d' by ring]; auto.
    + intros Z. apply Ze. rewrite Es. destruct (MZ Z) as [Y|[Y1 Y2]]; [rewrite Y; ring|rewrite Y1, Y2; ring].
    + rewrite Et, Es. ring.
  - exists ((1 + c) * (1 + c')), e'. split; [apply mul_between; try lra; apply near_one; auto|]. split; [auto|]. split; [|rewrite Ew, Ep; ring].
    intros Z. apply Ze'. rewrite Ep. destruct (MZ Z) as [Y|[Y1 Y2]]; [rewrite Y; ring|rewrite Y1, Y2, Rabs_R0; ring].
  - destruct LA as [Y|Y]; [left; rewrite Y; ring|].
    assert (LM : Rabs (value a) + Rabs (value b) = 0 \/ powerRZ 2 (- (2 * 200)) / 8 <= Rabs (value a) + Rabs (value b)).
    { pose proof (Rabs_pos (value a)). pose proof (Rabs_pos (value b)). destruct La as [La|La]; [|right; lra]. destruct Lb as [Lb|Lb]; [|right; lra]. left. rewrite La, Lb, Rabs_R0. ring. }
    destruct LM as [Z|Z]; [left; rewrite Z; ring|right].
    apply Rle_trans with (powerRZ 2 (-404) * (powerRZ 2 (- (2 * 200)) / 8)).
    + change (- (2 * 200))%Z with (-400)%Z. replace (powerRZ 2 (-404) * (powerRZ 2 (-400) / 8)) with (powerRZ 2 (-404) * powerRZ 2 (-400) * / 8) by field.
      rewrite <- powerRZ_add by lra. change (-404 + -400)%Z with (96 + -900)%Z. rewrite powerRZ_add by lra. pose proof (pow2_pos (-900)).
      assert (K : 8 <= powerRZ 2 96). { change (powerRZ 2 96) with (2 ^ 96). replace 8 with (2 ^ 3) by ring. apply Rle_pow; [lra|lia]. }
      set (k := powerRZ 2 96) in *. clearbody k. nra.
    + apply Rmult_le_compat; auto; [apply Rlt_le, pow2_pos|]. pose proof (pow2_pos (- (2 * 200))). lra.
Qed.

Lemma prod_in : forall p q d : vec FOps, in_range 200 200 p -> in_range 200 200 q -> in_range 200 200 d ->
  let m := SFmul prec emax (SFsub prec emax (vx p) (vx d)) (SFsub prec emax (vy q) (vy d)) in
  double m /\ below 405 m /\ (exists f, (1 - u) ^ 3 <= f <= (1 + u) ^ 3 /\ value m = (value (vx p) - value (vx d)) * (value (vy q) - value (vy d)) * f) /\
  (value m = 0 \/ powerRZ 2 (- (2 * 200)) / 8 <= Rabs (value m)).
Proof.
  intros p q d [[Dx Dy] [[Bx By] [Mx My]]] [[Dx' Dy'] [[Bx' By'] [Mx' My']]] [[Ex Ey] [[Cx Cy] [Nx Ny]]] m.
  destruct (prod_ok 200 200 (vx p) (vx d) (vy q) (vy d)) as [D1 [B1 [f [F [E1 L1]]]]]; auto; try lia. repeat split; auto; [apply D1|apply D1|]. exists f. auto.
Qed.

Lemma incircle_sign : forall fuel B (pa pb pc pd : vec FOps) det, exactinit FOps fuel fhalf = Some B ->
  in_range 200 200 pa -> in_range 200 200 pb -> in_range 200 200 pc -> in_range 200 200 pd ->
  incircle FOps B false pa pb pc pd = Returned det -> double det /\ value det <> 0 /\ same_sign (value det) (power2 (place pa) (place pb) (place pc) (place pd)).
Proof.
  intros fuel B pa pb pc pd det EB Ra Rb Rc Rd. destruct (bounds_value _ _ EB) as [_ [_ [_ EA]]].
  unfold incircle. cbv zeta beta. cbn [sub mul add opp fabs FOps]. change f64_prec with 53%Z. change f64_emax with 1024%Z. rewrite EA. clear EA EB.
  destruct (lift_ok pa pd Ra Rd) as [DA [BA [PA [HA LA]]]]. destruct (lift_ok pb pd Rb Rd) as [DB [BB [PB [HB LB]]]]. destruct (lift_ok pc pd Rc Rd) as [DC [BC [PC [HC LC]]]].
  destruct (prod_in pb pc pd Rb Rc Rd) as [D1 [B1 [F1 L1]]]. destruct (prod_in pc pb pd Rc Rb Rd) as [D2 [B2 [F2 L2]]].
  destruct (prod_in pc pa pd Rc Ra Rd) as [D3 [B3 [F3 L3]]]. destruct (prod_in pa pc pd Ra Rc Rd) as [D4 [B4 [F4 L4]]].
  destruct (prod_in pa pb pd Ra Rb Rd) as [D5 [B5 [F5 L5]]]. destruct (prod_in pb pa pd Rb Ra Rd) as [D6 [B6 [F6 L6]]].
  cbv zeta in *.
  destruct (term_ok _ _ _ _ _ _ DA D1 D2 BA B1 B2 PA HA F1 F2 LA L1 L2) as [Dt1 [Bt1 [Dw1 [Bw1 T1]]]].
  destruct (term_ok _ _ _ _ _ _ DB D3 D4 BB B3 B4 PB HB F3 F4 LB L3 L4) as [Dt2 [Bt2 [Dw2 [Bw2 T2]]]].
  destruct (term_ok _ _ _ _ _ _ DC D5 D6 BC B5 B6 PC HC F5 F6 LC L5 L6) as [Dt3 [Bt3 [Dw3 [Bw3 T3]]]].
  set (t1 := SFmul prec emax _ (SFsub prec emax (SFmul prec emax (SFsub prec emax (vx pb) (vx pd)) (SFsub prec emax (vy pc) (vy pd))) _)) in *.
  set (t2 := SFmul prec emax _ (SFsub prec emax (SFmul prec emax (SFsub prec emax (vx pc) (vx pd)) (SFsub prec emax (vy pa) (vy pd))) _)) in *.
  set (t3 := SFmul prec emax _ (SFsub prec emax (SFmul prec emax (SFsub prec emax (vx pa) (vx pd)) (SFsub prec emax (vy pb) (vy pd))) _)) in *.
  set (w1 := SFmul prec emax (SFadd prec emax (SFabs (SFmul prec emax (SFsub prec emax (vx pb) (vx pd)) (SFsub prec emax (vy pc) (vy pd)))) _) _) in *.
  set (w2 := SFmul prec emax (SFadd prec emax (SFabs (SFmul prec emax (SFsub prec emax (vx pc) (vx pd)) (SFsub prec emax (vy pa) (vy pd)))) _) _) in *.
  set (w3 := SFmul prec emax (SFadd prec emax (SFabs (SFmul prec emax (SFsub prec emax (vx pa) (vx pd)) (SFsub prec emax (vy pb) (vy pd)))) _) _) in *.
  clearbody t1 t2 t3 w1 w2 w3. clear DA BA PA HA LA DB BB PB HB LB DC BC PC HC LC D1 B1 F1 L1 D2 B2 F2 L2 D3 B3 F3 L3 D4 B4 F4 L4 D5 B5 F5 L5 D6 B6 F6 L6.
  assert (Bs : below 817 (SFadd prec emax t1 t2)) by (apply (add_below 815); auto; lia).
  destruct (add_err _ _ Dt1 Dt2 (below_finite _ _ Bs)) as [Ds [d1 [H1 E1]]].
  assert (Bd : below 819 (SFadd prec emax (SFadd prec emax t1 t2) t3)) by (apply (add_below 817); auto; [apply below_mono with 815%Z; auto; lia|lia]).
  destruct (add_err _ _ Ds Dt3 (below_finite _ _ Bd)) as [Dd [d2 [H2 E2]]].
  assert (Bv : below 817 (SFadd prec emax w1 w2)) by (apply (add_below 815); auto; lia).
  destruct (add_err _ _ Dw1 Dw2 (below_finite _ _ Bv)) as [Dv [c1 [K1 G1]]].
  assert (Bp : below 819 (SFadd prec emax (SFadd prec emax w1 w2) w3)) by (apply (add_below 817); auto; [apply below_mono with 815%Z; auto; lia|lia]).
  destruct (add_err _ _ Dv Dw3 (below_finite _ _ Bp)) as [Dp [c2 [K2 G2]]].
  set (dt := SFadd prec emax (SFadd prec emax t1 t2) t3) in *. set (pm := SFadd prec emax (SFadd prec emax w1 w2) w3) in *.
  set (k := S754_finite false 5629499534213126 (-102)).
  assert (DK : double k) by (split; [exact I|reflexivity]). assert (BK : below 1 k) by (split; [lia|reflexivity]).
  assert (Be : below 821 (SFmul prec emax k pm)) by (apply (mul_below 1 819); auto; lia).
  destruct (mul_err0 k pm DK Dp (below_finite _ _ Be)) as [De [c3 [e [K3 [He [Ze Ee]]]]]]. unfold k in Ee, Ze. rewrite boundI_value in Ee, Ze. fold k in Ee.
  rewrite E1 in E2. rewrite G1 in G2. rewrite G2 in Ee, Ze.
  assert (PW : power2 (place pa) (place pb) (place pc) (place pd) =
    ((value (vx pa) - value (vx pd)) * (value (vx pa) - value (vx pd)) + (value (vy pa) - value (vy pd)) * (value (vy pa) - value (vy pd))) * ((value (vx pb) - value (vx pd)) * (value (vy pc) - value (vy pd)) - (value (vx pc) - value (vx pd)) * (value (vy pb) - value (vy pd))) +
    ((value (vx pb) - value (vx pd)) * (value (vx pb) - value (vx pd)) + (value (vy pb) - value (vy pd)) * (value (vy pb) - value (vy pd))) * ((value (vx pc) - value (vx pd)) * (value (vy pa) - value (vy pd)) - (value (vx pa) - value (vx pd)) * (value (vy pc) - value (vy pd))) +
    ((value (vx pc) - value (vx pd)) * (value (vx pc) - value (vx pd)) + (value (vy pc) - value (vy pd)) * (value (vy pc) - value (vy pd))) * ((value (vx pa) - value (vx pd)) * (value (vy pb) - value (vy pd)) - (value (vx pb) - value (vx pd)) * (value (vy pa) - value (vy pd)))) by reflexivity.
  change (gtb FOps dt (SFmul prec emax k pm)) with (SFltb (SFmul prec emax k pm) dt). change (gtb FOps (SFopp dt) (SFmul prec emax k pm)) with (SFltb (SFmul prec emax k pm) (SFopp dt)).
  destruct (SFltb (SFmul prec emax k pm) dt || SFltb (SFmul prec emax k pm) (SFopp dt)) eqn:C; [|discriminate]. intros H. injection H as <-. split; [exact Dd|].
  apply orb_true_iff in C. destruct C as [C|C].
  - apply (ltb_value _ _ De Dd) in C. rewrite Ee in C. rewrite E2 in C.
    destruct (icc_core _ _ _ _ _ _ _ _ _ _ _ _ _ _ _ _ _ _ _ _ _ _ _ _ d1 d2 c1 c2 c3 e T1 T2 T3 H1 H2 K1 K2 K3 He Ze C) as [R1 R2].
    rewrite <- PW in R2. cbv zeta in R1. rewrite <- E2 in R1. split; [clear - R1; lra|]. apply same_sign_cases. auto.
  - apply (ltb_value _ _ De (opp_double _ Dd)) in C. rewrite opp_value, Ee, E2 in C.
    assert (C' : boundI * (((value w1 + value w2) * (1 + c1) + value w3) * (1 + c2)) * (1 + c3) + e < ((- value t1 + - value t2) * (1 + d1) + - value t3) * (1 + d2)) by (eapply Rlt_le_trans; [exact C|]; right; ring).
    destruct (icc_core _ _ _ _ _ _ _ _ _ _ _ _ _ _ _ _ _ _ _ _ _ _ _ _ d1 d2 c1 c2 c3 e (term_swap _ _ _ _ _ _ _ _ T1) (term_swap _ _ _ _ _ _ _ _ T2) (term_swap _ _ _ _ _ _ _ _ T3) H1 H2 K1 K2 K3 He Ze C') as [R1 R2].
    assert (R3 : value dt < 0) by (rewrite E2; cbv zeta in R1; clear - R1; lra).
    split; [clear - R3; lra|]. apply same_sign_cases. right. left. split; [exact R3|]. rewrite PW. clear - R2. lra.
Qed.
