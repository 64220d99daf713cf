(** Rounding errors of inner products, distances, orientations and containment. *)
From Coq Require Import List Arith ZArith NArith Bool Lia Reals Lra Psatz.
From Coq Require Import Floats.SpecFloat.
From Verif Require Import Base AlgebraModel GeometryModel GeometrySpec FloatSpec Float_proofs FloatBound_proofs FloatUse_proofs Geometry_proofs Circle_proofs Segment_proofs RoundSpec Round_proofs.
Import ListNotations.
Local Open Scope R_scope.

Lemma u_num : u = / 9007199254740992.
Proof. unfold u. cbn [powerRZ]. f_equal. cbv [Pos.to_nat Pos.iter_op Init.Nat.add]. cbn [pow]. ring. Qed.

(** ** products of 1 + d *)
Lemma pow_g : forall n, 1 <= (1 + u) ^ n.
Proof. intros. apply pow_R1_Rle. pose proof u_pos. lra. Qed.
Lemma rel_step : forall a al d, Rabs (a - 1) <= al -> Rabs d <= u -> Rabs (a * (1 + d) - 1) <= (1 + al) * (1 + u) - 1.
Proof.
  intros a al d HA HD. replace (a * (1 + d) - 1) with ((a - 1) + (a - 1) * d + d) by ring.
  eapply Rle_trans; [apply Rabs_triang|]. eapply Rle_trans; [apply Rplus_le_compat_r; apply Rabs_triang|]. rewrite Rabs_mult.
  assert (Rabs (a - 1) * Rabs d <= al * u) by (apply Rmult_le_compat; auto; apply Rabs_pos). lra.
Qed.
Lemma pow_bound : forall n, INR n * u <= / 2 -> (1 + u) ^ n - 1 <= 2 * INR n * u.
Proof.
  pose proof u_pos as U. induction n as [|n IH]; intros H; [cbn; lra|]. rewrite S_INR in *. cbn [pow].
  assert (INR n * u <= / 2) by lra. specialize (IH H0). pose proof (pos_INR n). nra.
Qed.
Lemma four : (1 + u) ^ 4 - 1 <= 8 * u.
Proof. pose proof (pow_bound 4). replace (INR 4) with 4 in H by (cbn; ring). rewrite u_num in *. lra. Qed.

(** ** inner products *)
Lemma exact_abs_pos : forall a b, 0 <= exact_abs a b.
Proof. unfold exact_abs. induction a as [|x a IH]; intros [|y b]; cbn [sum_of]; try lra. pose proof (Rabs_pos (value x * value y)). specialize (IH b). lra. Qed.

Lemma inner_finite : forall a b c s, inner_product FOps a b c = Ok s -> finite s -> finite c.
Proof.
  induction a as [|x a IH]; intros b c s H F; cbn [inner_product] in H; [injection H as <-; auto|].
  destruct b as [|y b]; [discriminate|]. specialize (IH _ _ _ H F). apply add_finite in IH. tauto.
Qed.
Lemma inner_err : forall a b c s, Forall double a -> Forall double b -> double c -> inner_product FOps a b c = Ok s -> finite s ->
  double s /\ Rabs (value s - (value c + exact a b)) <= ((1 + u) ^ length a - 1) * Rabs (value c) + ((1 + u) ^ S (length a) - 1) * exact_abs a b + INR (length a) * (tiny * (1 + u) ^ length a).
Proof.
  pose proof u_pos as U. pose proof tiny_pos as TP.
  induction a as [|x a IH]; intros b c s HA HB HC H F; cbn [inner_product] in H.
  - injection H as <-. split; auto. unfold exact, exact_abs. cbn [sum_of length INR pow]. replace (value c - (value c + 0)) with 0 by ring. rewrite Rabs_R0. lra.
  - destruct b as [|y b]; [discriminate|]. apply Forall_cons_iff in HA. apply Forall_cons_iff in HB. destruct HA as [DX HA], HB as [DY HB].
    pose proof (inner_finite _ _ _ _ H F) as FC. cbn [add mul FOps] in FC, H. change f64_prec with 53%Z in *. change f64_emax with 1024%Z in *.
    destruct (add_finite _ _ FC) as [_ FM].
    destruct (mul_err _ _ DX DY FM) as [DM [d [e [HD [HE EM]]]]].
    destruct (add_err _ _ HC DM FC) as [DA [d' [HD' EA]]].
    destruct (IH _ _ _ HA HB DA H F) as [DS B]. split; auto.
    set (c' := SFadd 53 1024 c (SFmul 53 1024 x y)) in *.
    unfold exact, exact_abs in *. cbn [sum_of length]. rewrite S_INR.
    set (p := value x * value y) in *. set (g := (1 + u) ^ length a) in *.
    change ((1 + u) ^ S (length a)) with ((1 + u) * g) in *.
    change ((1 + u) ^ S (S (length a))) with ((1 + u) * ((1 + u) * g)).
    pose proof (pow_g (length a)) as G. fold g in G.
    set (Sx := sum_of (fun x y => value x * value y) a b) in *. set (Sa := sum_of (fun x y => Rabs (value x * value y)) a b) in *.
    assert (E1 : Rabs (value c' - (value c + p)) <= u * Rabs (value c) + ((1 + u) * (1 + u) - 1) * Rabs p + tiny * (1 + u)).
    { rewrite EA, EM. replace ((value c + (p * (1 + d) + e)) * (1 + d') - (value c + p)) with (d' * value c + (p * ((1 + d) * (1 + d') - 1) + e * (1 + d'))) by ring.
      eapply Rle_trans; [apply Rabs_triang|]. rewrite Rabs_mult.
      assert (Rabs d' * Rabs (value c) <= u * Rabs (value c)) by (apply Rmult_le_compat_r; auto; apply Rabs_pos).
      assert (R : Rabs ((1 + d) * (1 + d') - 1) <= (1 + u) * (1 + u) - 1) by (apply rel_step; auto; replace (1 + d - 1) with d by ring; auto).
      assert (Rabs (p * ((1 + d) * (1 + d') - 1)) <= ((1 + u) * (1 + u) - 1) * Rabs p).
      { rewrite Rabs_mult, Rmult_comm. apply Rmult_le_compat_r; auto. apply Rabs_pos. }
      assert (Rabs (e * (1 + d')) <= tiny * (1 + u)).
      { rewrite Rabs_mult. apply Rmult_le_compat; auto; try apply Rabs_pos. eapply Rle_trans; [apply Rabs_triang|]. rewrite Rabs_R1. lra. }
      pose proof (Rabs_triang (p * ((1 + d) * (1 + d') - 1)) (e * (1 + d'))). lra. }
    assert (E2 : Rabs (value c') <= (1 + u) * Rabs (value c) + (1 + u) * (1 + u) * Rabs p + tiny * (1 + u)).
    { replace (value c') with ((value c' - (value c + p)) + (value c + p)) by ring. eapply Rle_trans; [apply Rabs_triang|].
      pose proof (Rabs_triang (value c) p). lra. }
    replace (value s - (value c + (p + Sx))) with ((value s - (value c' + Sx)) + (value c' - (value c + p))) by ring.
    eapply Rle_trans; [apply Rabs_triang|].
    assert (E3 : (g - 1) * Rabs (value c') <= (g - 1) * ((1 + u) * Rabs (value c) + (1 + u) * (1 + u) * Rabs p + tiny * (1 + u))) by (apply Rmult_le_compat_l; lra).
    assert (E4 : INR (length a) * (tiny * g) <= INR (length a) * (tiny * ((1 + u) * g))).
    { apply Rmult_le_compat_l; [apply pos_INR|]. apply Rmult_le_compat_l; [lra|]. nra. }
    assert (E5 : ((1 + u) * g - 1) * Sa <= ((1 + u) * ((1 + u) * g) - 1) * Sa).
    { apply Rmult_le_compat_r; [apply (exact_abs_pos a b)|]. nra. }
    eapply Rle_trans; [apply Rplus_le_compat; [exact B|exact E1]|].
    eapply Rle_trans; [apply Rplus_le_compat_r, Rplus_le_compat; [apply Rplus_le_compat; [exact E3|exact E5]|exact E4]|].
    right. ring.
Qed.

(** ** sums and differences of products of differences *)
Lemma term_err : forall a b c d, double a -> double b -> double c -> double d ->
  let P := SFmul 53 1024 (SFsub 53 1024 a b) (SFsub 53 1024 c d) in finite P ->
  double P /\ exists h e, Rabs h <= (1 + u) ^ 3 - 1 /\ Rabs e <= tiny /\ value P = (value a - value b) * (value c - value d) * (1 + h) + e.
Proof.
  intros a b c d DA DB DC DD P F. destruct (mul_finite _ _ F) as [F1 F2].
  destruct (sub_err _ _ DA DB F1) as [D1 [d1 [H1 E1]]]. destruct (sub_err _ _ DC DD F2) as [D2 [d2 [H2 E2]]].
  destruct (mul_err _ _ D1 D2 F) as [DP [d3 [e [H3 [HE E3]]]]]. split; [exact DP|].
  exists ((1 + d1) * (1 + d2) * (1 + d3) - 1), e. split; [|split; auto].
  - replace ((1 + u) ^ 3 - 1) with ((1 + ((1 + u) * (1 + u) - 1)) * (1 + u) - 1) by ring. apply rel_step; auto. apply rel_step; auto.
    replace (1 + d1 - 1) with d1 by ring. auto.
  - unfold P. rewrite E3, E1, E2. ring.
Qed.
Lemma pair_err : forall A B h1 h2 e1 e2 c, Rabs h1 <= (1 + u) ^ 3 - 1 -> Rabs h2 <= (1 + u) ^ 3 - 1 -> Rabs e1 <= tiny -> Rabs e2 <= tiny -> Rabs c <= u ->
  Rabs (((A * (1 + h1) + e1) + (B * (1 + h2) + e2)) * (1 + c) - (A + B)) <= 8 * u * (Rabs A + Rabs B) + 4 * tiny.
Proof.
  intros A B h1 h2 e1 e2 c H1 H2 E1 E2 C. pose proof u_pos. pose proof tiny_pos.
  assert (K : forall h, Rabs h <= (1 + u) ^ 3 - 1 -> Rabs ((1 + h) * (1 + c) - 1) <= 8 * u).
  { intros h Hh. eapply Rle_trans; [|apply four]. replace ((1 + u) ^ 4 - 1) with ((1 + ((1 + u) ^ 3 - 1)) * (1 + u) - 1) by ring.
    apply rel_step; auto. replace (1 + h - 1) with h by ring. auto. }
  pose proof (K _ H1) as K1. pose proof (K _ H2) as K2.
  replace (((A * (1 + h1) + e1) + (B * (1 + h2) + e2)) * (1 + c) - (A + B)) with ((A * ((1 + h1) * (1 + c) - 1) + B * ((1 + h2) * (1 + c) - 1)) + (e1 + e2) * (1 + c)) by ring.
  eapply Rle_trans; [apply Rabs_triang|]. eapply Rle_trans; [apply Rplus_le_compat_r, Rabs_triang|]. rewrite !Rabs_mult.
  assert (Rabs A * Rabs ((1 + h1) * (1 + c) - 1) <= Rabs A * (8 * u)) by (apply Rmult_le_compat_l; auto; apply Rabs_pos).
  assert (Rabs B * Rabs ((1 + h2) * (1 + c) - 1) <= Rabs B * (8 * u)) by (apply Rmult_le_compat_l; auto; apply Rabs_pos).
  assert (Rabs (e1 + e2) * Rabs (1 + c) <= (2 * tiny) * 2).
  { apply Rmult_le_compat; try apply Rabs_pos.
    - pose proof (Rabs_triang e1 e2). lra.
    - pose proof (Rabs_triang 1 c) as X. rewrite Rabs_R1 in X. rewrite u_num in *. lra. }
  lra.
Qed.

(** ** square roots *)
Lemma sqrt_near : forall s S rho tau, 0 <= s -> 0 <= S -> 0 <= rho <= 1 -> 0 <= tau -> Rabs (s - S) <= rho * S + tau ->
  Rabs (sqrt s - sqrt S) <= rho * sqrt S + sqrt tau.
Proof.
  intros s S rho tau Hs HS HR HT H.
  assert (H' : - (rho * S + tau) <= s - S <= rho * S + tau) by (pose proof (Rle_abs (s - S)); pose proof (Rle_abs (- (s - S))) as X; rewrite Rabs_Ropp in X; lra). clear H. rename H' into H.
  assert (SP : forall a b, 0 <= a -> 0 <= b -> sqrt (a + b) <= sqrt a + sqrt b).
  { intros a b Ha Hb. apply Rsqr_incr_0_var; [|pose proof (sqrt_pos a); pose proof (sqrt_pos b); lra].
    rewrite Rsqr_sqrt by lra. unfold Rsqr. pose proof (sqrt_sqrt a Ha). pose proof (sqrt_sqrt b Hb). pose proof (sqrt_pos a). pose proof (sqrt_pos b). nra. }
  assert (UP : forall k, 1 <= k -> sqrt (k * S) <= k * sqrt S).
  { intros k Hk. apply Rsqr_incr_0_var; [|apply Rmult_le_pos; [lra|apply sqrt_pos]]. rewrite Rsqr_sqrt by nra. unfold Rsqr.
    replace (k * sqrt S * (k * sqrt S)) with (k * k * (sqrt S * sqrt S)) by ring. rewrite sqrt_sqrt by auto. apply Rmult_le_compat_r; nra. }
  assert (LO : forall k, 0 <= k <= 1 -> k * sqrt S <= sqrt (k * S)).
  { intros k Hk. apply Rsqr_incr_0_var; [|apply sqrt_pos]. rewrite Rsqr_sqrt by nra. unfold Rsqr.
    replace (k * sqrt S * (k * sqrt S)) with (k * k * (sqrt S * sqrt S)) by ring. rewrite sqrt_sqrt by auto. apply Rmult_le_compat_r; nra. }
  apply Rabs_le. split.
  - assert (sqrt ((1 - rho) * S) <= sqrt (s + tau)) by (apply sqrt_le_1; nra). pose proof (SP s tau Hs HT). pose proof (LO (1 - rho)). lra.
  - assert (sqrt s <= sqrt ((1 + rho) * S + tau)) by (apply sqrt_le_1; nra). pose proof (SP ((1 + rho) * S) tau). pose proof (UP (1 + rho)). assert (0 <= (1 + rho) * S) by nra. lra.
Qed.

(** ** points *)
Local Notation fvec := (vec FOps).
Lemma cauchy : forall a b c d, Rabs (a * d) + Rabs (c * b) <= sqrt (a * a + b * b) * sqrt (c * c + d * d).
Proof.
  intros. rewrite <- sqrt_mult by nra. rewrite !Rabs_mult.
  pose proof (Rabs_pos a). pose proof (Rabs_pos b). pose proof (Rabs_pos c). pose proof (Rabs_pos d).
  assert (SQ : forall x, x * x = Rabs x * Rabs x) by (intros x; unfold Rabs; destruct (Rcase_abs x); ring).
  rewrite (SQ a), (SQ b), (SQ c), (SQ d). set (A := Rabs a) in *. set (B := Rabs b) in *. set (C := Rabs c) in *. set (D := Rabs d) in *.
  rewrite <- (sqrt_square (A * D + C * B)) by (apply Rplus_le_le_0_compat; apply Rmult_le_pos; auto).
  apply sqrt_le_1; [apply Rle_0_sqr|apply Rmult_le_pos; apply Rplus_le_le_0_compat; apply Rle_0_sqr|].
  pose proof (Rle_0_sqr (A * C - B * D)) as S. unfold Rsqr in S. lra.
Qed.
Lemma dist_flip : forall p q, dist p q = dist q p. Proof. intros. unfold dist. f_equal. ring. Qed.
Lemma dist2_err : forall p q : fvec, double_point p -> double_point q -> finite (distanceSquared FOps p q) ->
  double (distanceSquared FOps p q) /\ 0 <= value (distanceSquared FOps p q) /\
  Rabs (value (distanceSquared FOps p q) - dist (place p) (place q) * dist (place p) (place q)) <= 8 * u * (dist (place p) (place q) * dist (place p) (place q)) + 4 * tiny.
Proof.
  intros p q [PX PY] [QX QY]. unfold distanceSquared. cbn [add sub mul FOps]. change f64_prec with 53%Z. change f64_emax with 1024%Z. intros F.
  destruct (add_finite _ _ F) as [F1 F2].
  destruct (term_err _ _ _ _ PX QX PX QX F1) as [D1 [h1 [e1 [H1 [E1 V1]]]]]. destruct (term_err _ _ _ _ PY QY PY QY F2) as [D2 [h2 [e2 [H2 [E2 V2]]]]].
  destruct (add_err _ _ D1 D2 F) as [D [c [C V]]]. split; [exact D|]. split.
  - assert (N : forall x, double x -> not_below_zero x -> 0 <= value x).
    { intros [s|s| |s m e] _ S; cbn in *; try lra. rewrite S. rewrite Rmult_1_l. apply Rmult_le_pos; [apply IZR_le; lia|]. left. apply powerRZ_lt. lra. }
    apply N; auto. apply add_sign; apply square_sign.
  - rewrite V, V1, V2. set (X := value (vx p) - value (vx q)). set (Y := value (vy p) - value (vy q)).
    assert (DD : dist (place p) (place q) * dist (place p) (place q) = X * X + Y * Y) by (unfold dist; apply sqrt_sqrt; unfold px, py; nra).
    rewrite DD. pose proof (pair_err (X * X) (Y * Y) h1 h2 e1 e2 c H1 H2 E1 E2 C) as B.
    rewrite (Rabs_right (X * X)), (Rabs_right (Y * Y)) in B by nra. exact B.
Qed.
(** 2^-536 *)
Definition kappa : R := powerRZ 2 (-536).
Lemma kappa_square : kappa * kappa = 8 * tiny.
Proof.
  unfold kappa, tiny. rewrite <- powerRZ_add by lra. change (-536 + -536)%Z with (3 + -1075)%Z. rewrite powerRZ_add by lra.
  assert (E : powerRZ 2 3 = 8) by (change (powerRZ 2 3) with (2 ^ 3); ring). rewrite E. reflexivity.
Qed.
Lemma kappa_small : 0 < kappa <= / 2 ^ 120.
Proof.
  split; [apply powerRZ_lt; lra|]. unfold kappa. change (-536)%Z with (-120 + -416)%Z. rewrite powerRZ_add by lra.
  assert (E : powerRZ 2 (-120) = / 2 ^ 120) by reflexivity. rewrite E.
  assert (L : powerRZ 2 (-416) <= 1).
  { change (powerRZ 2 (-416)) with (/ 2 ^ 416). rewrite <- Rinv_1. apply Rinv_le_contravar; [lra|]. apply pow_R1_Rle. lra. }
  assert (0 < / 2 ^ 120) by (apply Rinv_0_lt_compat, pow_lt; lra). nra.
Qed.
Lemma p120 : / 2 ^ 120 <= / 1000000000000000000000000000000000000.
Proof. apply Rinv_le_contravar; [lra|]. rewrite pow_IZR. apply IZR_le. vm_compute. discriminate. Qed.

Lemma u_le : u <= / 1000000000000000. Proof. rewrite u_num. lra. Qed.
Lemma dist_err : forall (p q : fvec) d, double_point p -> double_point q -> distance FOps p q = Ok d -> finite d ->
  double d /\ Rabs (value d - dist (place p) (place q)) <= 10 * u * dist (place p) (place q) + 2 * kappa.
Proof.
  intros p q d HP HQ E F. unfold distance in E. cbn [fsqrt FOps] in E. injection E as <-. change f64_prec with 53%Z in *. change f64_emax with 1024%Z in *.
  pose proof (sqrt_finite _ F) as F2. destruct (dist2_err p q HP HQ F2) as [D [NN B]].
  destruct (sqrt_err _ D F) as [DS [h [e [H [HE V]]]]]. split; auto.
  set (L := dist (place p) (place q)) in *. assert (L0 : 0 <= L) by apply sqrt_pos.
  match goal with |- Rabs (value ?x - _) <= _ => change x with (SFsqrt 53 1024 (distanceSquared FOps p q)) end. rewrite V.
  set (s := value (distanceSquared FOps p q)) in *. pose proof u_pos as U. pose proof tiny_pos as TP. pose proof u_le as UL. pose proof kappa_small as K. pose proof p120 as K2.
  assert (S : Rabs (sqrt s - L) <= 8 * u * L + kappa).
  { pose proof (sqrt_near s (L * L) (8 * u) (4 * tiny) NN) as S. rewrite sqrt_square in S by auto.
    assert (Q : sqrt (4 * tiny) <= kappa).
    { rewrite <- (sqrt_square kappa) by lra. apply sqrt_le_1; try nra. rewrite kappa_square. lra. }
    assert (Rabs (sqrt s - L) <= 8 * u * L + sqrt (4 * tiny)) by (apply S; nra || lra). lra. }
  replace (sqrt s * (1 + h) + e - L) with ((sqrt s - L) * (1 + h) + (L * h + e)) by ring.
  eapply Rle_trans; [apply Rabs_triang|]. rewrite Rabs_mult.
  assert (A1 : Rabs (1 + h) <= 1 + u) by (eapply Rle_trans; [apply Rabs_triang|]; rewrite Rabs_R1; lra).
  assert (A2 : Rabs (sqrt s - L) * Rabs (1 + h) <= (8 * u * L + kappa) * (1 + u)) by (apply Rmult_le_compat; auto; apply Rabs_pos).
  assert (A3 : Rabs (L * h + e) <= L * u + tiny).
  { eapply Rle_trans; [apply Rabs_triang|]. rewrite Rabs_mult, (Rabs_right L) by lra. apply Rplus_le_compat; auto. apply Rmult_le_compat_l; auto. }
  pose proof kappa_square as KS. assert (A4 : tiny <= kappa / 8) by nra.
  assert (UL0 : 0 <= u * L) by (apply Rmult_le_pos; lra).
  assert (8 * u * L * u <= u * L).
  { replace (8 * u * L * u) with ((u * L) * (8 * u)) by ring. rewrite <- (Rmult_1_r (u * L)) at 2. apply Rmult_le_compat_l; auto. lra. }
  assert (kappa * u <= kappa * / 8) by (apply Rmult_le_compat_l; lra). lra.
Qed.


(** ** comparison of points *)
Lemma one_double : double (f64_ofZ 1). Proof. split; [exact I|vm_compute; reflexivity]. Qed.
Lemma eps9_double : double (eps9 FOps). Proof. split; vm_compute; auto. Qed.
Lemma eps9_value : Rabs (value (eps9 FOps) - / 10 ^ 9) <= / 10 ^ 24.
Proof.
  assert (E : eps9 FOps = S754_finite false 4835703278458517 (-82)) by (vm_compute; reflexivity). rewrite E. cbn [value].
  change (powerRZ 2 (-82)) with (/ 2 ^ 82). rewrite Rmult_1_l, !pow_IZR.
  change (2 ^ Z.of_nat 82)%Z with 4835703278458516698824704%Z. change (10 ^ Z.of_nat 9)%Z with 1000000000%Z. change (10 ^ Z.of_nat 24)%Z with 1000000000000000000000000%Z.
  apply Rabs_le. split; lra.
Qed.
Lemma dist_small : forall p q : fvec, double_point p -> double_point q -> dist (place p) (place q) <= 1 -> exists d, distance FOps p q = Ok d /\ finite d.
Proof.
  intros p q [PX PY] [QX QY] L. unfold distance. cbn [fsqrt FOps]. eexists. split; [reflexivity|]. change f64_prec with 53%Z. change f64_emax with 1024%Z.
  unfold distanceSquared. cbn [add sub mul FOps]. change f64_prec with 53%Z. change f64_emax with 1024%Z.
  set (X := value (vx p) - value (vx q)). set (Y := value (vy p) - value (vy q)).
  assert (DD : X * X + Y * Y <= 1).
  { assert (E : dist (place p) (place q) * dist (place p) (place q) = X * X + Y * Y) by (unfold dist; apply sqrt_sqrt; unfold px, py; nra).
    pose proof (sqrt_pos ((px (place p) - px (place q)) * (px (place p) - px (place q)) + (py (place p) - py (place q)) * (py (place p) - py (place q)))) as N.
    fold (dist (place p) (place q)) in N. nra. }
  pose proof u_pos as U. pose proof u_le as UL. pose proof kappa_square as KS. pose proof kappa_small as K. pose proof p120 as K2. pose proof tiny_pos as TP.
  assert (T1 : tiny <= 1) by nra.
  assert (ONE : forall a b, double a -> double b -> (value a - value b) * (value a - value b) <= 1 ->
    let P := SFmul 53 1024 (SFsub 53 1024 a b) (SFsub 53 1024 a b) in double P /\ Rabs (value P) <= 6).
  { intros a b DA DB H P. assert (A1 : Rabs (value a - value b) <= 1) by (apply Rabs_le; nra).
    assert (F : finite (SFsub 53 1024 a b)) by (apply sub_small; auto; lra). destruct (sub_err _ _ DA DB F) as [DS [d [HD V]]].
    assert (A2 : Rabs (value (SFsub 53 1024 a b)) <= 2).
    { rewrite V, Rabs_mult. replace 2 with (1 * 2) by ring. apply Rmult_le_compat; auto; try apply Rabs_pos.
      eapply Rle_trans; [apply Rabs_triang|]. rewrite Rabs_R1. lra. }
    assert (A3 : Rabs (value (SFsub 53 1024 a b) * value (SFsub 53 1024 a b)) <= 4).
    { rewrite Rabs_mult. replace 4 with (2 * 2) by ring. apply Rmult_le_compat; auto; apply Rabs_pos. }
    assert (FM : finite P) by (apply mul_small; auto; lra). destruct (mul_err _ _ DS DS FM) as [DM [d' [e [HD' [HE V']]]]]. split; auto.
    unfold P. rewrite V'. eapply Rle_trans; [apply Rabs_triang|]. rewrite Rabs_mult.
    assert (Rabs (1 + d') <= 1 + u) by (eapply Rle_trans; [apply Rabs_triang|]; rewrite Rabs_R1; lra).
    assert (Rabs (value (SFsub 53 1024 a b) * value (SFsub 53 1024 a b)) * Rabs (1 + d') <= 4 * (1 + u)) by (apply Rmult_le_compat; auto; apply Rabs_pos). lra. }
  destruct (ONE _ _ PX QX) as [D1 B1]; [fold X; nra|]. destruct (ONE _ _ PY QY) as [D2 B2]; [fold Y; nra|].
  assert (FA : finite (SFadd 53 1024 (SFmul 53 1024 (SFsub 53 1024 (vx p) (vx q)) (SFsub 53 1024 (vx p) (vx q))) (SFmul 53 1024 (SFsub 53 1024 (vy p) (vy q)) (SFsub 53 1024 (vy p) (vy q))))).
  { apply add_small; auto. eapply Rle_trans; [apply Rabs_triang|]. lra. }
  apply sqrt_small; [apply (add_err _ _ D1 D2 FA)|]. apply add_sign; apply square_sign.
Qed.
Lemma feq_dec : forall p q : fvec, double_point p -> double_point q ->
  (dist (place p) (place q) <= / 10 ^ 9 - / 10 ^ 23 -> vec_eqb FOps p q = Ok true) /\
  (/ 10 ^ 9 + / 10 ^ 23 <= dist (place p) (place q) -> vec_eqb FOps p q = Ok false).
Proof.
  intros p q HP HQ. pose proof eps9_value as E9. pose proof eps9_double as D9. pose proof kappa_small as K. pose proof p120 as K2. pose proof u_pos as U. pose proof u_num as UN.
  rewrite !pow_IZR in *. change (10 ^ Z.of_nat 9)%Z with 1000000000%Z in *. change (10 ^ Z.of_nat 24)%Z with 1000000000000000000000000%Z in *.
  change (10 ^ Z.of_nat 23)%Z with 100000000000000000000000%Z in *.
  assert (E9' : - / 1000000000000000000000000 <= value (eps9 FOps) - / 1000000000 <= / 1000000000000000000000000).
  { pose proof (Rle_abs (value (eps9 FOps) - / 1000000000)) as X1. pose proof (Rle_abs (- (value (eps9 FOps) - / 1000000000))) as X2. rewrite Rabs_Ropp in X2. lra. }
  set (L := dist (place p) (place q)) in *. assert (L0 : 0 <= L) by apply sqrt_pos.
  assert (G : forall d, distance FOps p q = Ok d -> finite d -> double d /\ - (10 * u * L + 2 * kappa) <= value d - L <= 10 * u * L + 2 * kappa).
  { intros d E F. destruct (dist_err p q d HP HQ E F) as [D B]. split; auto. fold L in B.
    pose proof (Rle_abs (value d - L)) as X1. pose proof (Rle_abs (- (value d - L))) as X2. rewrite Rabs_Ropp in X2. lra. }
  split; intros H.
  - destruct (dist_small p q HP HQ) as [d [E F]]; [fold L; lra|]. destruct (G d E F) as [D B]. unfold vec_eqb. rewrite E. cbn [bind]. f_equal.
    cbn [ltb FOps]. apply ltb_value; auto. rewrite UN in B. assert (L <= / 1000000000) by lra. lra.
  - unfold vec_eqb. destruct (dist_sign p q) as [d [E S]]. rewrite E. cbn [bind]. f_equal. cbn [ltb FOps].
    assert (FD : finite d \/ ~ finite d) by (destruct d; cbn; tauto). destruct FD as [F|F].
    + destruct (G d E F) as [D B]. destruct (SFltb d (eps9 FOps)) eqn:L9; auto. exfalso. apply ltb_value in L9; auto. rewrite UN in B. lra.
    + assert (E9e : eps9 FOps = S754_finite false 4835703278458517 (-82)) by (vm_compute; reflexivity). rewrite E9e.
      destruct d as [s|s| |s m e]; cbn in F; try (elim F; exact I); cbn in S; try rewrite S; reflexivity.
Qed.

(** ** orientation *)
Lemma cross_err : forall a b c d a' b' c' d', double a -> double b -> double c -> double d -> double a' -> double b' -> double c' -> double d' ->
  let v := SFsub 53 1024 (SFmul 53 1024 (SFsub 53 1024 a b) (SFsub 53 1024 c d)) (SFmul 53 1024 (SFsub 53 1024 a' b') (SFsub 53 1024 c' d')) in
  let A := (value a - value b) * (value c - value d) in let B := (value a' - value b') * (value c' - value d') in
  finite v -> double v /\ Rabs (value v - (A - B)) <= 8 * u * (Rabs A + Rabs B) + 4 * tiny.
Proof.
  intros a b c d a' b' c' d' Da Db Dc Dd Da' Db' Dc' Dd' v A B F. destruct (sub_finite _ _ F) as [F1 F2].
  destruct (term_err _ _ _ _ Da Db Dc Dd F1) as [D1 [h1 [e1 [H1 [E1 V1]]]]]. destruct (term_err _ _ _ _ Da' Db' Dc' Dd' F2) as [D2 [h2 [e2 [H2 [E2 V2]]]]].
  destruct (sub_err _ _ D1 D2 F) as [D [k [C V]]]. split; [exact D|]. unfold v. rewrite V, V1, V2. fold A B.
  pose proof (pair_err A (- B) h1 h2 e1 (- e2) k H1 H2 E1) as X. rewrite !Rabs_Ropp in X. specialize (X E2 C).
  replace ((A * (1 + h1) + e1 - (B * (1 + h2) + e2)) * (1 + k) - (A - B)) with ((A * (1 + h1) + e1 + (- B * (1 + h2) + - e2)) * (1 + k) - (A + - B)) by ring. exact X.
Qed.
Lemma val3_err : forall p1 p2 p3 : fvec, double_point p1 -> double_point p2 -> double_point p3 -> point_below 400 p1 -> point_below 400 p2 -> point_below 400 p3 ->
  let a := place p1 in let b := place p2 in let c := place p3 in
  double (val3 p1 p2 p3) /\ Rabs (value (val3 p1 p2 p3) + turn a b c) <= 8 * u * (dist a b * dist b c) + 4 * tiny.
Proof.
  intros p1 p2 p3 [X1 Y1] [X2 Y2] [X3 Y3] B1 B2 B3 a b c. pose proof (below_finite _ _ (val3_below p1 p2 p3 B1 B2 B3)) as F.
  destruct (cross_err _ _ _ _ _ _ _ _ Y2 Y1 X3 X2 X2 X1 Y3 Y2 F) as [D E]. split; [exact D|].
  assert (T : (value (vy p2) - value (vy p1)) * (value (vx p3) - value (vx p2)) - (value (vx p2) - value (vx p1)) * (value (vy p3) - value (vy p2)) = - turn a b c)
    by (unfold turn, a, b, c, place, px, py; cbn [vx vy]; ring).
  rewrite T in E. replace (value (val3 p1 p2 p3) + turn a b c) with (value (val3 p1 p2 p3) - - turn a b c) by ring. eapply Rle_trans; [exact E|].
  apply Rplus_le_compat_r. apply Rmult_le_compat_l; [pose proof u_pos; lra|].
  rewrite (dist_flip a b), (dist_flip b c), Rplus_comm. unfold dist, a, b, c, place, px, py. cbn [vx vy].
  rewrite (Rmult_comm (value (vy p2) - value (vy p1))). apply cauchy.
Qed.
Lemma dbl_eps_double : double (dbl_eps FOps). Proof. split; [exact I|vm_compute; reflexivity]. Qed.
Lemma dbl_eps_value : value (dbl_eps FOps) = eps52.
Proof.
  unfold eps52. cbn [dbl_eps FOps value]. change (powerRZ 2 (-104)) with (/ 2 ^ 104). rewrite Rmult_1_l, !pow_IZR.
  change (Zpos (2 ^ 52)) with 4503599627370496%Z. change (2 ^ Z.of_nat 104)%Z with (4503599627370496 * 4503599627370496)%Z. change (2 ^ Z.of_nat 52)%Z with 4503599627370496%Z.
  rewrite mult_IZR. field.
Qed.
Lemma orient_dec : forall p1 p2 p3 : fvec, double_point p1 -> double_point p2 -> double_point p3 -> point_below 400 p1 -> point_below 400 p2 -> point_below 400 p3 ->
  let a := place p1 in let b := place p2 in let c := place p3 in let m := 8 * u * (dist a b * dist b c) + 4 * tiny in
  (eps52 + m < turn a b c -> geomOrientation FOps p1 p2 p3 = COUNTERCLOCKWISE) /\
  (turn a b c < - (eps52 + m) -> geomOrientation FOps p1 p2 p3 = CLOCKWISE) /\
  (Rabs (turn a b c) + m < eps52 -> geomOrientation FOps p1 p2 p3 = COLLINEAR).
Proof.
  intros p1 p2 p3 D1 D2 D3 B1 B2 B3 a b c m. destruct (val3_err p1 p2 p3 D1 D2 D3 B1 B2 B3) as [D E]. fold a b c m in E.
  assert (E' : - m <= value (val3 p1 p2 p3) + turn a b c <= m).
  { pose proof (Rle_abs (value (val3 p1 p2 p3) + turn a b c)) as X1. pose proof (Rle_abs (- (value (val3 p1 p2 p3) + turn a b c))) as X2. rewrite Rabs_Ropp in X2. lra. }
  assert (DZ : double (S754_zero false)) by (split; [exact I|reflexivity]).
  assert (E52 : 0 < eps52) by (unfold eps52; apply Rinv_0_lt_compat, pow_lt; lra).
  rewrite !orient_run. set (v := val3 p1 p2 p3) in *.
  assert (LA : SFltb (SFabs v) (dbl_eps FOps) = true <-> Rabs (value v) < eps52) by (rewrite <- abs_value, <- dbl_eps_value; apply ltb_value; [apply abs_double; auto|apply dbl_eps_double]).
  assert (LZ : SFltb (S754_zero false) v = true <-> 0 < value v) by (apply (ltb_value _ _ DZ D)).
  destruct (SFltb (SFabs v) (dbl_eps FOps)).
  - assert (H : Rabs (value v) < eps52) by tauto. apply Rabs_def2 in H. split; [intros; lra|]. split; [intros; lra|auto].
  - assert (H : eps52 <= Rabs (value v)) by (apply Rnot_lt_le; intros X; apply LA in X; discriminate).
    split; [|split]; intros X.
    + destruct (SFltb (S754_zero false) v); auto. exfalso. assert (0 < value v) by tauto. lra.
    + destruct (SFltb (S754_zero false) v); auto. exfalso. assert (Y : 0 < value v) by lra. apply LZ in Y. discriminate.
    + exfalso. assert (Rabs (value v) <= Rabs (turn a b c) + m).
      { replace (value v) with ((value v + turn a b c) - turn a b c) by ring. eapply Rle_trans; [apply Rabs_triang|]. rewrite Rabs_Ropp. lra. }
      lra.
Qed.

(** ** containment *)
Lemma eqb_same : forall x y, double x -> double y -> SFeqb x y = Reqb (value x) (value y).
Proof. intros x y DX DY. apply eq_iff_eq_true. rewrite Reqb_true. apply eqb_value; auto. Qed.
Lemma ltb_same : forall x y, double x -> double y -> SFltb x y = Rltb (value x) (value y).
Proof. intros x y DX DY. apply eq_iff_eq_true. rewrite Rltb_true. apply ltb_value; auto. Qed.
Lemma cross3_err : forall p A B : fvec, double_point p -> double_point A -> double_point B -> point_below 400 p -> point_below 400 A -> point_below 400 B ->
  let a := place A in let b := place B in let q := place p in
  double (cross3 p A B) /\ Rabs (value (cross3 p A B) - turn q a b) <= 8 * u * (dist q a * dist q b) + 4 * tiny.
Proof.
  intros p A B [X1 Y1] [X2 Y2] [X3 Y3] B1 B2 B3 a b q. pose proof (below_finite _ _ (cross3_below p A B B1 B2 B3)) as F.
  destruct (cross_err _ _ _ _ _ _ _ _ X2 X1 Y3 Y1 X3 X1 Y2 Y1 F) as [D E]. split; [exact D|]. eapply Rle_trans; [exact E|].
  apply Rplus_le_compat_r. apply Rmult_le_compat_l; [pose proof u_pos; lra|].
  rewrite (dist_flip q a), (dist_flip q b). unfold dist, a, b, q, place, px, py. cbn [vx vy]. apply cauchy.
Qed.
Lemma edge_same : forall p A B : fvec, double_point p -> double_point A -> double_point B -> point_below 400 p -> point_below 400 A -> point_below 400 B ->
  clear_of_edge (place p) (place A) (place B) -> edge_step FOps p A B = edge_step ROps (place p) (place A) (place B).
Proof.
  intros p A B DP DA DB B1 B2 B3 C. destruct (cross3_err p A B DP DA DB B1 B2 B3) as [DC E].
  destruct DP as [PX PY], DA as [AX AY], DB as [BX BY]. rewrite edge_run.
  unfold edge_step, leb, geb, gtb, fge, fle. cbn [eqb ltb add sub mul zero ROps place vx vy].
  rewrite !eqb_same, !ltb_same by auto.
  assert (DZ : double (S754_zero false)) by (split; [exact I|reflexivity]).
  rewrite (eqb_same _ _ DC DZ), (ltb_same _ _ DZ DC).
  change ((value (vx A) - value (vx p)) * (value (vy B) - value (vy p)) - (value (vx B) - value (vx p)) * (value (vy A) - value (vy p))) with (turn (place p) (place A) (place B)).
  set (v := value (cross3 p A B)) in *. set (t := turn (place p) (place A) (place B)) in *.
  set (xp := value (vx p)) in *. set (yp := value (vy p)) in *. set (xa := value (vx A)) in *. set (ya := value (vy A)) in *. set (xb := value (vx B)) in *. set (yb := value (vy B)) in *.
  change (value (S754_zero false)) with 0.

  destruct C as [C|[C|[C|C]]]; unfold place, py in C; cbn [vx vy] in C; fold ya yb yp in C.
  - (* a level edge *)
    assert (E1 : Rltb ya yb = false) by (apply Rltb_false; lra). assert (E2 : Rltb yb ya = false) by (apply Rltb_false; lra).
    assert (E3 : Reqb yb ya = true) by (apply Reqb_true; lra). assert (E4 : Reqb ya yb = true) by (apply Reqb_true; lra).
    rewrite E1, E2, E3, E4. cbn [orb andb].
    destruct (Reqb yp ya) eqn:E5; [reflexivity|].
    assert (E6 : Reqb yp yb = false) by (rewrite <- E5; f_equal; lra). rewrite E6.
    destruct (Rltb ya yp) eqn:E7.
    + apply Rltb_true in E7. assert (E8 : Rltb yp yb = false) by (apply Rltb_false; lra). assert (E9 : Rltb yp ya = false) by (apply Rltb_false; lra).
      rewrite E8, E9. cbn [orb andb]. rewrite ?andb_false_r, ?orb_false_r. reflexivity.
    + apply Rltb_false in E7. assert (E8 : Rltb yb yp = false) by (apply Rltb_false; lra).
      rewrite E8. cbn [orb andb]. rewrite ?andb_false_r, ?orb_false_r. reflexivity.
  - pose proof (Rmin_l ya yb). pose proof (Rmin_r ya yb).
    assert (E1 : Rltb ya yp = false) by (apply Rltb_false; lra). assert (E2 : Reqb yp ya = false) by (apply Reqb_false; lra).
    assert (E3 : Rltb yb yp = false) by (apply Rltb_false; lra). assert (E4 : Reqb yp yb = false) by (apply Reqb_false; lra).
    rewrite E1, E2, E3, E4. cbn [orb andb]. rewrite ?andb_false_r, ?orb_false_r. reflexivity.
  - pose proof (Rmax_l ya yb). pose proof (Rmax_r ya yb).
    assert (E1 : Rltb yp ya = false) by (apply Rltb_false; lra). assert (E2 : Reqb yp ya = false) by (apply Reqb_false; lra).
    assert (E3 : Rltb yp yb = false) by (apply Rltb_false; lra). assert (E4 : Reqb yp yb = false) by (apply Reqb_false; lra).
    rewrite E1, E2, E3, E4. cbn [orb andb]. rewrite ?andb_false_r, ?orb_false_r. reflexivity.
  - set (m := 8 * u * (dist (place p) (place A) * dist (place p) (place B)) + 4 * tiny) in *.
    assert (E' : - m <= v - t <= m).
    { pose proof (Rle_abs (v - t)) as X1. pose proof (Rle_abs (- (v - t))) as X2. rewrite Rabs_Ropp in X2. lra. }
    assert (M : 0 <= m).
    { unfold m. pose proof u_pos. pose proof tiny_pos. assert (0 <= dist (place p) (place A) * dist (place p) (place B)) by (apply Rmult_le_pos; apply sqrt_pos).
      assert (0 <= 8 * u * (dist (place p) (place A) * dist (place p) (place B))) by (apply Rmult_le_pos; auto; lra). lra. }
    assert (E1 : Reqb v 0 = Reqb t 0 /\ Rltb 0 v = Rltb 0 t).
    { change (m < Rabs t) in C. unfold Rabs in C. destruct (Rcase_abs t) as [N|N].
      - split; [transitivity false; [|symmetry]; apply Reqb_false; lra|transitivity false; [|symmetry]; apply Rltb_false; lra].
      - split; [transitivity false; [|symmetry]; apply Reqb_false; lra|transitivity true; [|symmetry]; apply Rltb_true; lra]. }
    destruct E1 as [-> ->]. reflexivity.
Qed.
Lemma walk_edges : forall l : list pt, walk ROps l = edges l.
Proof.
  intros [|a t]; auto. unfold walk, edges. generalize a at 1 3. intros b. revert b. induction t as [|c t IH]; intros b; cbn [app opairs combine]; auto.
  rewrite IH. reflexivity.
Qed.
Lemma walk_map : forall l : list fvec, walk ROps (map place l) = map (fun e => (place (fst e), place (snd e))) (walk FOps l).
Proof.
  intros [|a t]; auto. unfold walk. cbn [map]. change [place a] with (map place [a]). rewrite <- map_app. generalize a at 1 3. generalize (t ++ [a]).
  induction l as [|c l IH]; intros b; cbn [map opairs]; auto. rewrite IH. reflexivity.
Qed.
Lemma contains_edges : forall (l : list fvec) (p : fvec),
  (forall a b, In (a, b) (walk FOps l) -> In a l -> In b l -> edge_step FOps p a b = edge_step ROps (place p) (place a) (place b)) ->
  poly_contains FOps l p = poly_contains ROps (map place l) (place p).
Proof.
  intros l p C. rewrite !contains_walk, walk_map.
  assert (G : forall w, (forall a b, In (a, b) w -> In (a, b) (walk FOps l)) ->
    existsb (ohit FOps p) w = existsb (ohit ROps (place p)) (map (fun e => (place (fst e), place (snd e))) w) /\
    opar FOps p w = opar ROps (place p) (map (fun e => (place (fst e), place (snd e))) w)).
  { induction w as [|[a b] w IH]; intros I; [split; reflexivity|]. destruct IH as [I1 I2]; [intros; apply I; right; auto|].
    pose proof (I a b (or_introl eq_refl)) as J. destruct (walk_in FOps l a b J) as [Ia Ib].
    assert (E : edge_step FOps p a b = edge_step ROps (place p) (place a) (place b)) by (apply C; auto).
    cbn [map existsb opar fst snd]. unfold opar in *. cbn [fold_right map]. unfold ohit, otog in *. cbn [fst snd]. rewrite E, I1. split; auto. rewrite I2. reflexivity. }
  destruct (G (walk FOps l)) as [-> ->]; auto.
Qed.
Lemma contains_same : forall (l : list fvec) (p : fvec), Forall double_point (p :: l) -> Forall (point_below 400) (p :: l) ->
  (forall a b, In (a, b) (edges (map place l)) -> clear_of_edge (place p) a b) ->
  poly_contains FOps l p = poly_contains ROps (map place l) (place p).
Proof.
  intros l p D B C. rewrite Forall_cons_iff in D, B. destruct D as [DP DL], B as [BP BL]. rewrite Forall_forall in DL, BL.
  rewrite <- walk_edges, walk_map in C. apply contains_edges. intros a b J Ia Ib.
  apply edge_same; auto. apply C. apply (in_map (fun e => (place (fst e), place (snd e)))) in J. exact J.
Qed.

(** ** orientation, triangles and segments as in exact arithmetic *)
Lemma orient_same : forall p1 p2 p3 : fvec, double_point p1 -> double_point p2 -> double_point p3 -> point_below 400 p1 -> point_below 400 p2 -> point_below 400 p3 ->
  clear_turn (place p1) (place p2) (place p3) -> geomOrientation FOps p1 p2 p3 = geomOrientation ROps (place p1) (place p2) (place p3).
Proof.
  intros p1 p2 p3 D1 D2 D3 B1 B2 B3 C. destruct (orient_dec p1 p2 p3 D1 D2 D3 B1 B2 B3) as [CC [CW CO]]. unfold clear_turn in C.
  set (a := place p1) in *. set (b := place p2) in *. set (c := place p3) in *. set (m := 8 * u * (dist a b * dist b c) + 4 * tiny) in *.
  assert (M : 0 <= m).
  { unfold m. pose proof u_pos. pose proof tiny_pos. assert (0 <= dist a b * dist b c) by (apply Rmult_le_pos; apply sqrt_pos).
    assert (0 <= 8 * u * (dist a b * dist b c)) by (apply Rmult_le_pos; auto; lra). lra. }
  assert (E52 : 0 < eps52) by (unfold eps52; apply Rinv_0_lt_compat, pow_lt; lra).
  unfold geomOrientation at 2, gtb. cbn [ltb fabs sub mul dbl_eps zero ROps]. change (/ 2 ^ 52) with eps52.
  assert (T : (vy b - vy a) * (vx c - vx b) - (vx b - vx a) * (vy c - vy b) = - turn a b c) by (unfold turn, px, py; toR; ring).
  toR. rewrite T, Rabs_Ropp.
  destruct C as [C|C].
  - assert (F : Rltb (Rabs (turn a b c)) eps52 = false) by (apply Rltb_false; lra). rewrite F.
    unfold Rabs in C. destruct (Rcase_abs (turn a b c)) as [N|N].
    + rewrite CW by lra. assert (G : Rltb 0 (- turn a b c) = true) by (apply Rltb_true; lra). rewrite G. reflexivity.
    + rewrite CC by lra. assert (G : Rltb 0 (- turn a b c) = false) by (apply Rltb_false; lra). rewrite G. reflexivity.
  - assert (F : Rltb (Rabs (turn a b c)) eps52 = true) by (apply Rltb_true; lra). rewrite F. apply CO. lra.
Qed.
Lemma area_err : forall p A B : fvec, double_point p -> double_point A -> double_point B -> point_below 400 p -> point_below 400 A -> point_below 400 B ->
  let a := place A in let b := place B in let q := place p in
  double (seg_area FOps p A B) /\ Rabs (value (seg_area FOps p A B) - turn q a b) <= 8 * u * (dist q a * dist q b) + 4 * tiny.
Proof. exact cross3_err. Qed.
Lemma area_sign : forall p A B : fvec, double_point p -> double_point A -> double_point B -> point_below 400 p -> point_below 400 A -> point_below 400 B ->
  forall x e, double x -> 0 <= e -> 0 <= value x -> let a := place A in let b := place B in let q := place p in
  Rmax e (value x) + (8 * u * (dist q a * dist q b) + 4 * tiny) < Rabs (turn q a b) ->
  SFltb (SFabs (seg_area FOps p A B)) x = Rltb (Rabs (turn q a b)) e /\ Rltb (Rabs (turn q a b)) e = false /\
  SFltb (S754_zero false) (seg_area FOps p A B) = Rltb 0 (turn q a b).
Proof.
  intros p A B D1 D2 D3 B1 B2 B3 x e DX E0 X0 a b q C. destruct (area_err p A B D1 D2 D3 B1 B2 B3) as [D E]. fold a b q in E.
  set (m := 8 * u * (dist q a * dist q b) + 4 * tiny) in *. set (t := turn q a b) in *. set (v := seg_area FOps p A B) in *.
  pose proof (Rmax_l e (value x)). pose proof (Rmax_r e (value x)).
  assert (E' : - m <= value v - t <= m).
  { pose proof (Rle_abs (value v - t)) as X1. pose proof (Rle_abs (- (value v - t))) as X2. rewrite Rabs_Ropp in X2. lra. }
  assert (DZ : double (S754_zero false)) by (split; [exact I|reflexivity]).
  rewrite (ltb_same _ _ (abs_double _ D) DX), (ltb_same _ _ DZ D), abs_value. change (value (S754_zero false)) with 0.
  assert (G : Rltb (Rabs t) e = false) by (apply Rltb_false; lra). rewrite G.
  unfold Rabs in C. destruct (Rcase_abs t) as [N|N].
  - split; [apply Rltb_false; rewrite Rabs_left; lra|]. split; auto. transitivity false; [|symmetry]; apply Rltb_false; lra.
  - split; [apply Rltb_false; rewrite Rabs_right; lra|]. split; auto. transitivity true; [|symmetry]; apply Rltb_true; lra.
Qed.
Lemma intersect_same : forall (x : f64) (e : R) (a b c d : fvec), double x -> 0 <= value x -> 0 <= e -> Forall double_point [a; b; c; d] -> Forall (point_below 400) [a; b; c; d] ->
  (forall p q r, In (p, q, r) [(a, b, c); (a, b, d); (c, d, a); (c, d, b)] ->
    Rmax e (value x) + (8 * u * (dist (place p) (place q) * dist (place p) (place r)) + 4 * tiny) < Rabs (turn (place p) (place q) (place r))) ->
  segmentsIntersect FOps x a b c d = segmentsIntersect ROps e (place a) (place b) (place c) (place d).
Proof.
  intros x e a b c d DX X0 E0 D B C. rewrite !Forall_cons_iff in D, B. destruct D as [Da [Db [Dc [Dd _]]]], B as [Ba [Bb [Bc [Bd _]]]].
  destruct (area_sign a b c Da Db Dc Ba Bb Bc x e DX E0 X0 (C _ _ _ (or_introl eq_refl))) as [L1 [N1 S1]].
  destruct (area_sign a b d Da Db Dd Ba Bb Bd x e DX E0 X0 (C _ _ _ (or_intror (or_introl eq_refl)))) as [L2 [N2 S2]].
  destruct (area_sign c d a Dc Dd Da Bc Bd Ba x e DX E0 X0 (C _ _ _ (or_intror (or_intror (or_introl eq_refl))))) as [L3 [N3 S3]].
  destruct (area_sign c d b Dc Dd Db Bc Bd Bb x e DX E0 X0 (C _ _ _ (or_intror (or_intror (or_intror (or_introl eq_refl)))))) as [L4 [N4 S4]].
  change (turn (place a) (place b) (place c)) with (seg_area ROps (place a) (place b) (place c)) in *.
  change (turn (place a) (place b) (place d)) with (seg_area ROps (place a) (place b) (place d)) in *.
  change (turn (place c) (place d) (place a)) with (seg_area ROps (place c) (place d) (place a)) in *.
  change (turn (place c) (place d) (place b)) with (seg_area ROps (place c) (place d) (place b)) in *.
  unfold segmentsIntersect, gtb. cbv zeta. cbn [ltb fabs zero FOps ROps].
  rewrite L1, N1, L2, N2, S1, S2, S3, S4. reflexivity.
Qed.
(** ** norms *)
Lemma dot_err : forall a b s, Forall double a -> Forall double b -> dot FOps a b = Ok s -> finite s -> INR (S (length a)) * u <= / 2 ->
  double s /\ Rabs (value s - exact a b) <= 2 * INR (S (length a)) * u * exact_abs a b + 2 * INR (length a) * tiny.
Proof.
  intros a b s HA HB E F NU. unfold dot in E. assert (DZ : double (S754_zero false)) by (split; [exact I|reflexivity]).
  destruct (inner_err a b (zero FOps) s HA HB DZ E F) as [D B]. split; auto. cbn [zero FOps] in B. change (value (S754_zero false)) with 0 in B.
  rewrite Rabs_R0, Rmult_0_r, !Rplus_0_l in B. eapply Rle_trans; [exact B|]. pose proof u_pos. pose proof tiny_pos. pose proof (pos_INR (length a)).
  pose proof (pow_bound _ NU) as P1. assert (P2 : (1 + u) ^ length a <= 2).
  { pose proof (pow_bound (length a)) as X. rewrite S_INR in NU. assert (Y : INR (length a) * u <= / 2) by lra. specialize (X Y). lra. }
  apply Rplus_le_compat; [apply Rmult_le_compat_r; auto; apply exact_abs_pos|]. replace (2 * INR (length a) * tiny) with (INR (length a) * (tiny * 2)) by ring.
  apply Rmult_le_compat_l; auto. apply Rmult_le_compat_l; lra.
Qed.
Lemma norm_err : forall a n, Forall double a -> AlgebraModel.norm FOps a = Ok n -> finite n -> INR (S (length a)) * u <= / 4 ->
  double n /\ Rabs (value n - sqrt (exact a a)) <= 2 * (INR (length a) + 2) * u * sqrt (exact a a) + 2 * sqrt (2 * INR (length a) * tiny) + tiny.
Proof.
  intros a n HA E F NU. unfold AlgebraModel.norm, squareSum in E. destruct (inner_sign a (zero FOps)) as [s [ES SS]]; [reflexivity|]. rewrite ES in E. cbn [bind fsqrt FOps] in E.
  injection E as <-. change f64_prec with 53%Z in *. change f64_emax with 1024%Z in *. pose proof (sqrt_finite _ F) as FS.
  assert (DZ : double (S754_zero false)) by (split; [exact I|reflexivity]).
  destruct (inner_err a a (zero FOps) s HA HA DZ ES FS) as [DS B]. destruct (sqrt_err s DS F) as [DN [h [e [H [HE V]]]]]. split; [exact DN|].
  cbn [zero FOps] in B. change (value (S754_zero false)) with 0 in B. rewrite Rabs_R0, Rmult_0_r, !Rplus_0_l in B.
  set (N := INR (length a)) in *. rewrite S_INR in NU. fold N in NU. pose proof u_pos as U. pose proof tiny_pos as TP. pose proof u_le as UL.
  assert (N0 : 0 <= N) by apply pos_INR.
  assert (EA : exact_abs a a = exact a a).
  { unfold exact_abs, exact. clear. induction a as [|x a IH]; cbn [sum_of]; auto. rewrite IH, Rabs_right by nra. reflexivity. }
  rewrite EA in B. set (S := exact a a) in *. assert (S0 : 0 <= S) by (rewrite <- EA; apply exact_abs_pos).
  assert (P1 : (1 + u) ^ Datatypes.S (length a) - 1 <= 2 * (N + 1) * u) by (pose proof (pow_bound (Datatypes.S (length a))) as X; rewrite S_INR in X; fold N in X; apply X; lra).
  assert (P2 : (1 + u) ^ length a <= 2) by (pose proof (pow_bound (length a)) as X; fold N in X; assert (N * u <= / 2) by lra; specialize (X H0); lra).
  assert (B' : Rabs (value s - S) <= 2 * (N + 1) * u * S + 2 * N * tiny).
  { eapply Rle_trans; [exact B|]. apply Rplus_le_compat; [apply Rmult_le_compat_r; auto|]. replace (2 * N * tiny) with (N * (tiny * 2)) by ring.
    apply Rmult_le_compat_l; auto. apply Rmult_le_compat_l; lra. }
  assert (V0 : 0 <= value s).
  { destruct s as [z|z| |z m k]; cbn in *; try lra. rewrite SS, Rmult_1_l. apply Rmult_le_pos; [apply IZR_le; lia|]. left. apply powerRZ_lt. lra. }
  assert (Q : Rabs (sqrt (value s) - sqrt S) <= 2 * (N + 1) * u * sqrt S + sqrt (2 * N * tiny)).
  { apply sqrt_near; auto; [split; [apply Rmult_le_pos; lra|lra]|apply Rmult_le_pos; lra]. }
  match goal with |- Rabs (value ?x - _) <= _ => change x with (SFsqrt 53 1024 s) end. rewrite V.
  set (r := sqrt (value s)) in *. set (q := sqrt S) in *. set (w := sqrt (2 * N * tiny)) in *. assert (Q0 : 0 <= q) by apply sqrt_pos. assert (W0 : 0 <= w) by apply sqrt_pos.
  replace (r * (1 + h) + e - q) with ((r - q) + (r * h + e)) by ring.
  eapply Rle_trans; [apply Rabs_triang|]. eapply Rle_trans; [apply Rplus_le_compat_l, Rabs_triang|]. rewrite Rabs_mult.
  assert (R0 : 0 <= r) by apply sqrt_pos. rewrite (Rabs_right r) by lra.
  assert (RB : r <= (1 + 2 * (N + 1) * u) * q + w) by (pose proof (Rle_abs (r - q)); lra).
  assert (RH : r * Rabs h <= ((1 + 2 * (N + 1) * u) * q + w) * u) by (apply Rmult_le_compat; auto; apply Rabs_pos).
  assert (K1 : 2 * (N + 1) * u * q * u <= 1 * q * u).
  { apply Rmult_le_compat_r; [lra|]. apply Rmult_le_compat_r; auto. lra. }
  assert (K2 : w * u <= w * 1) by (apply Rmult_le_compat_l; lra). lra.
Qed.

(** ** segments that cross *)
Lemma signs_cross : forall a b c d : pt, turn a b c * turn a b d < 0 -> turn c d a * turn c d b < 0 -> cross_properly a b c d.
Proof.
  intros a b c d H1 H2. set (w := (px b - px a) * (py d - py c) - (px d - px c) * (py b - py a)).
  assert (W1 : turn a b d - turn a b c = w) by (unfold turn, w; ring). assert (W2 : turn c d a - turn c d b = w) by (unfold turn, w; ring).
  assert (WN : w <> 0) by (intros Z; nra).
  assert (Q : forall x y, x * y < 0 -> 0 < x / (x - y) < 1).
  { intros x y H. destruct (Rtotal_order x 0) as [N|[N|N]]; [|subst; lra|].
    - assert (0 < y) by nra. assert (x - y < 0) by lra. replace (x / (x - y)) with ((- x) / (y - x)) by (field; lra). split; [apply Rdiv_lt_0_compat; lra|]. apply Rmult_lt_reg_r with (y - x); [lra|]. unfold Rdiv. rewrite Rmult_assoc, Rinv_l by lra. lra.
    - assert (y < 0) by nra. split; [apply Rdiv_lt_0_compat; lra|]. apply Rmult_lt_reg_r with (x - y); [lra|]. unfold Rdiv. rewrite Rmult_assoc, Rinv_l by lra. lra. }
  exists (turn c d a / (turn c d a - turn c d b)), (turn a b c / (turn a b c - turn a b d)). split; [apply Q; auto|]. split; [apply Q; auto|]. split; [|intros E; apply WN; lra].
  replace (turn a b c - turn a b d) with (- w) by lra. rewrite W2.
  apply pt_ext; rewrite ?along_x, ?along_y; apply Rmult_eq_reg_r with w; auto.
  - replace ((px a + turn c d a / w * (px b - px a)) * w) with (px a * w + turn c d a * (px b - px a)) by (field; auto).
    replace ((px c + turn a b c / - w * (px d - px c)) * w) with (px c * w - turn a b c * (px d - px c)) by (field; auto). unfold turn, w. ring.
  - replace ((py a + turn c d a / w * (py b - py a)) * w) with (py a * w + turn c d a * (py b - py a)) by (field; auto).
    replace ((py c + turn a b c / - w * (py d - py c)) * w) with (py c * w - turn a b c * (py d - py c)) by (field; auto). unfold turn, w. ring.
Qed.
Lemma intersect_cross : forall (x : f64) (a b c d : fvec), double x -> 0 <= value x -> Forall double_point [a; b; c; d] -> Forall (point_below 400) [a; b; c; d] ->
  (forall p q r, In (p, q, r) [(a, b, c); (a, b, d); (c, d, a); (c, d, b)] ->
    value x + (8 * u * (dist (place p) (place q) * dist (place p) (place r)) + 4 * tiny) < Rabs (turn (place p) (place q) (place r))) ->
  (segmentsIntersect FOps x a b c d = true <-> cross_properly (place a) (place b) (place c) (place d)).
Proof.
  intros x a b c d DX X0 D B C. rewrite (intersect_same x 0 a b c d DX X0 (Rle_refl 0) D B).
  2:{ intros p q r I. rewrite Rmax_right by auto. auto. }
  assert (M : forall p q r : pt, 0 <= 8 * u * (dist p q * dist p r) + 4 * tiny).
  { intros p q r. pose proof u_pos. pose proof tiny_pos. assert (0 <= dist p q * dist p r) by (apply Rmult_le_pos; apply sqrt_pos).
    assert (0 <= 8 * u * (dist p q * dist p r)) by (apply Rmult_le_pos; auto; lra). lra. }
  pose proof (C _ _ _ (or_introl eq_refl)) as C1. pose proof (C _ _ _ (or_intror (or_introl eq_refl))) as C2.
  pose proof (C _ _ _ (or_intror (or_intror (or_introl eq_refl)))) as C3. pose proof (C _ _ _ (or_intror (or_intror (or_intror (or_introl eq_refl))))) as C4.
  pose proof (M (place a) (place b) (place c)) as M1. pose proof (M (place a) (place b) (place d)) as M2. pose proof (M (place c) (place d) (place a)) as M3. pose proof (M (place c) (place d) (place b)) as M4.
  assert (N1 : turn (place a) (place b) (place c) <> 0) by (intros E; rewrite E, Rabs_R0 in C1; lra).
  assert (N2 : turn (place a) (place b) (place d) <> 0) by (intros E; rewrite E, Rabs_R0 in C2; lra).
  assert (N3 : turn (place c) (place d) (place a) <> 0) by (intros E; rewrite E, Rabs_R0 in C3; lra).
  assert (N4 : turn (place c) (place d) (place b) <> 0) by (intros E; rewrite E, Rabs_R0 in C4; lra).
  clear C C1 C2 C3 C4 M M1 M2 M3 M4 D B. generalize dependent (place d). generalize dependent (place c). generalize dependent (place b). generalize dependent (place a). clear a b c d. intros a b c N1 d N2 N3 N4.
  assert (S : segmentsIntersect ROps 0 a b c d = true <-> turn a b c * turn a b d < 0 /\ turn c d a * turn c d b < 0).
  { unfold segmentsIntersect, gtb. cbv zeta. change (seg_area ROps a b c) with (turn a b c). change (seg_area ROps a b d) with (turn a b d).
    change (seg_area ROps c d a) with (turn c d a). change (seg_area ROps c d b) with (turn c d b). cbn [ltb fabs zero ROps].
    pose proof (Rabs_pos (turn a b c)). pose proof (Rabs_pos (turn a b d)).
    assert (F1 : Rltb (Rabs (turn a b c)) 0 = false) by (apply Rltb_false; auto). assert (F2 : Rltb (Rabs (turn a b d)) 0 = false) by (apply Rltb_false; auto). rewrite F1, F2.
    assert (G : forall x y, x <> 0 -> y <> 0 -> (xorb (Rltb 0 x) (Rltb 0 y) = true <-> x * y < 0)).
    { intros v w V W. destruct (Rltb 0 v) eqn:EV, (Rltb 0 w) eqn:EW; cbn; first [apply Rltb_true in EV|apply Rltb_false in EV]; first [apply Rltb_true in EW|apply Rltb_false in EW];
      split; auto; intros K; try discriminate K; try nra; exfalso; nra. }
    rewrite <- (G _ _ N1 N2), <- (G _ _ N3 N4). destruct (Rltb 0 (turn a b c)), (Rltb 0 (turn a b d)); cbn; intuition discriminate. }
  rewrite S. split; [intros [P1 P2]; apply signs_cross; auto|].
  intros H. destruct (proper_signs a b c d H) as [P1 P2]. nra.
Qed.
