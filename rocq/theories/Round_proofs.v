(** Rounding of the operations of binary64: from Coq's SpecFloat to Flocq's correctness theorems. *)
From Coq Require Import List Arith ZArith NArith Bool Lia Reals Lra.
From Coq Require Import Floats.SpecFloat.
From Flocq Require Import Core BinarySingleNaN Relative Plus_error.
From Verif Require Import Base GeometryModel FloatSpec RoundSpec.
Import ListNotations.
Local Open Scope R_scope.

Local Notation prec := 53%Z.
Local Notation emax := 1024%Z.
#[local] Instance Hprec : FLX.Prec_gt_0 prec := eq_refl.
#[local] Instance Hmax : Prec_lt_emax prec emax := eq_refl.
Local Notation bin := (binary_float prec emax).

Lemma nearest_even_eq : forall s m l, round_nearest_even m l = choice_mode mode_NE s m l.
Proof. intros. destruct l as [|[| |]]; auto; cbn; unfold Round.cond_incr; destruct (Z.even m); auto. Qed.
Lemma aux_eq : forall s m e l, SpecFloat.binary_round_aux prec emax s m e l = binary_round_aux prec emax mode_NE s m e l.
Proof.
  intros. unfold SpecFloat.binary_round_aux, binary_round_aux. set (r := shr_fexp _ _ _ _ _). destruct r as [r e']. cbn zeta beta iota.
  rewrite (nearest_even_eq s). reflexivity.
Qed.
Lemma round_eq : forall s m e, SpecFloat.binary_round prec emax s m e = binary_round prec emax mode_NE s m e.
Proof. intros. unfold SpecFloat.binary_round, binary_round, shl_align_fexp. destruct (shl_align _ _ _). apply aux_eq. Qed.
Lemma normalize_eq : forall m e z, SpecFloat.binary_normalize prec emax m e z = B2SF (binary_normalize prec emax Hprec Hmax mode_NE m e z).
Proof. intros [|p|p] e z; cbn [SpecFloat.binary_normalize binary_normalize]; auto; rewrite B2SF_SF2B; apply round_eq. Qed.
Lemma mul_B : forall a b : bin, SFmul prec emax (B2SF a) (B2SF b) = B2SF (Bmult mode_NE a b).
Proof. intros [sa|sa| |sa ma ea Ha] [sb|sb| |sb mb eb Hb]; auto. unfold Bmult. rewrite B2SF_SF2B. apply aux_eq. Qed.
Lemma add_B : forall a b : bin, SFadd prec emax (B2SF a) (B2SF b) = B2SF (Bplus mode_NE a b).
Proof. intros [sa|sa| |sa ma ea Ha] [sb|sb| |sb mb eb Hb]; auto; try (cbn; destruct (Bool.eqb _ _); auto; fail). apply normalize_eq. Qed.
Lemma sub_B : forall a b : bin, SFsub prec emax (B2SF a) (B2SF b) = B2SF (Bminus mode_NE a b).
Proof.
  intros [sa|sa| |sa ma ea Ha] [sb|sb| |sb mb eb Hb]; auto; try (cbn; destruct (Bool.eqb _ _); auto; fail).
  cbn. unfold Zminus. rewrite <- cond_Zopp_negb. apply normalize_eq.
Qed.
Lemma div_B : forall a b : bin, SFdiv prec emax (B2SF a) (B2SF b) = B2SF (Bdiv mode_NE a b).
Proof.
  intros [sa|sa| |sa ma ea Ha] [sb|sb| |sb mb eb Hb]; auto.
  unfold Bdiv. rewrite B2SF_SF2B. cbn [B2SF SFdiv]. destruct (SFdiv_core_binary _ _ _ _ _ _) as [[x y] z]. apply aux_eq.
Qed.
Lemma sqrt_B : forall a : bin, SFsqrt prec emax (B2SF a) = B2SF (Bsqrt mode_NE a).
Proof.
  intros [sa|sa| |sa ma ea Ha]; auto; try (destruct sa; auto; fail). destruct sa; auto.
  unfold Bsqrt. rewrite B2SF_SF2B. cbn [B2SF SFsqrt]. destruct (SFsqrt_core_binary _ _ _ _) as [[x y] z]. apply aux_eq.
Qed.

(** ** values *)
Lemma value_SF : forall x, value x = SF2R radix2 x.
Proof.
  intros [s|s| |s m e]; auto. unfold value, SF2R, F2R. cbn [Fnum Fexp]. rewrite bpow_powerRZ. change (IZR radix2) with 2.
  destruct s; cbn [cond_Zopp]; [rewrite opp_IZR|]; ring.
Qed.
Lemma value_B : forall a : bin, value (B2SF a) = B2R a.
Proof. intros. rewrite value_SF. apply SF2R_B2SF. Qed.
Lemma finite_B : forall a : bin, finite (B2SF a) <-> is_finite a = true.
Proof. intros [s|s| |s m e H]; cbn; split; auto; discriminate. Qed.
Lemma double_B : forall x, double x -> exists a : bin, B2SF a = x /\ is_finite a = true.
Proof. intros x [F V]. exists (SF2B x V). rewrite B2SF_SF2B. split; auto. rewrite <- finite_B, B2SF_SF2B. auto. Qed.
Lemma B_double : forall a : bin, finite (B2SF a) -> double (B2SF a).
Proof. intros a F. split; auto. apply valid_binary_B2SF. Qed.

Lemma u_bpow : u = bpow radix2 (-53). Proof. unfold u. rewrite bpow_powerRZ. reflexivity. Qed.
Lemma u_half : /2 * bpow radix2 (- prec + 1) = u.
Proof.
  rewrite u_bpow. assert (E : bpow radix2 (- prec + 1) = bpow radix2 (-53) * bpow radix2 1) by apply (bpow_plus radix2 (-53) 1).
  assert (F : bpow radix2 1 = 2) by (rewrite bpow_1; reflexivity). rewrite E, F. generalize (bpow radix2 (-53)). intros. lra.
Qed.
Lemma tiny_half : /2 * bpow radix2 (3 - emax - prec) = tiny.
Proof.
  assert (T : tiny = bpow radix2 (-1075)) by (unfold tiny; rewrite bpow_powerRZ; reflexivity). rewrite T.
  assert (E : bpow radix2 (3 - emax - prec) = bpow radix2 (-1075) * bpow radix2 1) by apply (bpow_plus radix2 (-1075) 1).
  assert (F : bpow radix2 1 = 2) by (rewrite bpow_1; reflexivity). rewrite E, F. generalize (bpow radix2 (-1075)). intros. lra.
Qed.
Lemma u_pos : 0 < u. Proof. unfold u. apply powerRZ_lt. lra. Qed.
Lemma tiny_pos : 0 < tiny. Proof. unfold tiny. apply powerRZ_lt. lra. Qed.

Local Notation rnd := (round radix2 (SpecFloat.fexp prec emax) (round_mode mode_NE)).
Lemma rnd_err : forall x, exists d e, Rabs d <= u /\ Rabs e <= tiny /\ rnd x = x * (1 + d) + e.
Proof.
  intros x. destruct (error_N_FLT radix2 (3 - emax - prec) prec eq_refl (fun n => negb (Z.even n)) x) as [d [e [D [E [_ H]]]]].
  exists d, e. rewrite u_half in D. rewrite tiny_half in E. auto.
Qed.
Lemma rnd_add : forall a b : bin, exists d, Rabs d <= u /\ rnd (B2R a + B2R b) = (B2R a + B2R b) * (1 + d).
Proof.
  intros a b. destruct (FLT_plus_error_N_ex radix2 (3 - emax - prec) prec (fun n => negb (Z.even n)) (B2R a) (B2R b)) as [d [D H]].
  - apply generic_format_B2R.
  - apply generic_format_B2R.
  - exists d. split; [|exact H]. eapply Rle_trans; [exact D|].
    assert (U : u_ro radix2 prec = u) by (unfold u_ro; apply u_half). rewrite U.
    pose proof u_pos. apply Rmult_le_reg_r with (1 + u); [lra|]. unfold Rdiv. rewrite Rmult_assoc, Rinv_l by lra. nra.
Qed.

(** ** the operations *)
Lemma overflow_inf : forall (a : bin) s, B2SF a = binary_overflow prec emax mode_NE s -> ~ finite (B2SF a).
Proof. intros a s ->. cbn. auto. Qed.
Lemma add_err : forall x y, double x -> double y -> finite (SFadd prec emax x y) -> double (SFadd prec emax x y) /\
  exists d, Rabs d <= u /\ value (SFadd prec emax x y) = (value x + value y) * (1 + d).
Proof.
  intros x y HX HY. destruct (double_B x HX) as [a [<- FA]]. destruct (double_B y HY) as [b [<- FB]]. rewrite add_B. intros F.
  split; [apply B_double; auto|]. pose proof (Bplus_correct prec emax _ _ mode_NE a b FA FB) as C.
  destruct (Rlt_bool _ _).
  - destruct C as [C _]. destruct (rnd_add a b) as [d [D E]]. exists d. split; auto. rewrite !value_B, C. exact E.
  - destruct C as [C _]. exfalso. eapply overflow_inf; eauto.
Qed.
Lemma sub_err : forall x y, double x -> double y -> finite (SFsub prec emax x y) -> double (SFsub prec emax x y) /\
  exists d, Rabs d <= u /\ value (SFsub prec emax x y) = (value x - value y) * (1 + d).
Proof.
  intros x y HX HY. destruct (double_B x HX) as [a [<- FA]]. destruct (double_B y HY) as [b [<- FB]]. rewrite sub_B. intros F.
  split; [apply B_double; auto|]. pose proof (Bminus_correct prec emax _ _ mode_NE a b FA FB) as C.
  destruct (Rlt_bool _ _).
  - destruct C as [C _]. destruct (rnd_add a (Bopp b)) as [d [D E]]. rewrite B2R_Bopp in E. exists d. split; auto. rewrite !value_B, C. exact E.
  - destruct C as [C _]. exfalso. eapply overflow_inf; eauto.
Qed.
Lemma mul_err : forall x y, double x -> double y -> finite (SFmul prec emax x y) -> double (SFmul prec emax x y) /\
  exists d e, Rabs d <= u /\ Rabs e <= tiny /\ value (SFmul prec emax x y) = value x * value y * (1 + d) + e.
Proof.
  intros x y HX HY. destruct (double_B x HX) as [a [<- FA]]. destruct (double_B y HY) as [b [<- FB]]. rewrite mul_B. intros F.
  split; [apply B_double; auto|]. pose proof (Bmult_correct prec emax _ _ mode_NE a b) as C.
  destruct (Rlt_bool _ _).
  - destruct C as [C _]. destruct (rnd_err (B2R a * B2R b)) as [d [e [D [E H]]]]. exists d, e. split; auto. split; auto. rewrite !value_B, C. exact H.
  - exfalso. eapply overflow_inf; eauto.
Qed.
Lemma div_err : forall x y, double x -> double y -> value y <> 0 -> finite (SFdiv prec emax x y) -> double (SFdiv prec emax x y) /\
  exists d e, Rabs d <= u /\ Rabs e <= tiny /\ value (SFdiv prec emax x y) = value x / value y * (1 + d) + e.
Proof.
  intros x y HX HY. destruct (double_B x HX) as [a [<- FA]]. destruct (double_B y HY) as [b [<- FB]]. rewrite div_B, (value_B b). intros NZ F.
  split; [apply B_double; auto|]. pose proof (Bdiv_correct prec emax _ _ mode_NE a b NZ) as C.
  destruct (Rlt_bool _ _).
  - destruct C as [C _]. destruct (rnd_err (B2R a / B2R b)) as [d [e [D [E H]]]]. exists d, e. split; auto. split; auto. rewrite !value_B, C. exact H.
  - exfalso. eapply overflow_inf; eauto.
Qed.
Lemma sqrt_err : forall x, double x -> finite (SFsqrt prec emax x) -> double (SFsqrt prec emax x) /\
  exists d e, Rabs d <= u /\ Rabs e <= tiny /\ value (SFsqrt prec emax x) = sqrt (value x) * (1 + d) + e.
Proof.
  intros x HX. destruct (double_B x HX) as [a [<- FA]]. rewrite sqrt_B. intros F.
  split; [apply B_double; auto|]. pose proof (Bsqrt_correct prec emax _ _ mode_NE a) as [C _].
  destruct (rnd_err (sqrt (B2R a))) as [d [e [D [E H]]]]. exists d, e. split; auto. split; auto. rewrite !value_B, C. exact H.
Qed.
(** comparisons are those of the values *)
Lemma ltb_value : forall x y, double x -> double y -> SFltb x y = true <-> value x < value y.
Proof.
  intros x y HX HY. destruct (double_B x HX) as [a [<- FA]]. destruct (double_B y HY) as [b [<- FB]]. rewrite !value_B.
  change (SFltb (B2SF a) (B2SF b)) with (Bltb a b). rewrite Bltb_correct by auto. destruct (Rlt_bool_spec (B2R a) (B2R b)) as [E|E]; split; intros H; auto; [discriminate|lra].
Qed.
Lemma eqb_value : forall x y, double x -> double y -> SFeqb x y = true <-> value x = value y.
Proof.
  intros x y HX HY. destruct (double_B x HX) as [a [<- FA]]. destruct (double_B y HY) as [b [<- FB]]. rewrite !value_B.
  change (SFeqb (B2SF a) (B2SF b)) with (Beqb a b). rewrite Beqb_correct by auto. destruct (Req_bool_spec (B2R a) (B2R b)) as [E|E]; split; intros H; try discriminate; try (elim E; exact H); auto.
Qed.
(** finite results come from finite operands *)
Lemma add_finite : forall x y, finite (SFadd prec emax x y) -> finite x /\ finite y.
Proof. intros [s|s| |s m e] [t|t| |t n f]; cbn; auto; try tauto; destruct (Bool.eqb _ _); cbn; tauto. Qed.
Lemma sub_finite : forall x y, finite (SFsub prec emax x y) -> finite x /\ finite y.
Proof. intros [s|s| |s m e] [t|t| |t n f]; cbn; auto; try tauto; destruct (Bool.eqb _ _); cbn; tauto. Qed.
Lemma mul_finite : forall x y, finite (SFmul prec emax x y) -> finite x /\ finite y.
Proof. intros [s|s| |s m e] [t|t| |t n f]; cbn; auto; tauto. Qed.
Lemma sqrt_finite : forall x, finite (SFsqrt prec emax x) -> finite x.
Proof. intros [s|[|]| |s m e]; cbn; auto. Qed.
Lemma opp_value : forall x, value (SFopp x) = - value x.
Proof. intros [s|s| |s m e]; cbn; try lra. destruct s; cbn; lra. Qed.
Lemma abs_value : forall x, value (SFabs x) = Rabs (value x).
Proof.
  intros [s|s| |s m e]; cbn; try (rewrite Rabs_R0; auto).
  assert (0 < IZR (Zpos m) * powerRZ 2 e) by (apply Rmult_lt_0_compat; [apply IZR_lt; lia|apply powerRZ_lt; lra]).
  destruct s; [rewrite Rabs_left by nra|rewrite Rabs_right by nra]; lra.
Qed.
Lemma abs_double : forall x, double x -> double (SFabs x).
Proof. intros [s|s| |s m e] [F V]; split; auto. Qed.
Lemma opp_double : forall x, double x -> double (SFopp x).
Proof. intros [s|s| |s m e] [F V]; split; auto. Qed.

(** ** small results do not overflow *)
Lemma rnd_small : forall z, Rabs z <= 16 -> Rabs (rnd z) < bpow radix2 emax.
Proof.
  intros z H. destruct (rnd_err z) as [d [e [D [E ->]]]].
  assert (U : u <= 1) by (rewrite u_bpow; change 1 with (bpow radix2 0); apply bpow_le; lia).
  assert (TT : tiny <= 1) by (pose proof (bpow_le radix2 (3 - emax - prec) 1) as X; rewrite <- tiny_half; assert (bpow radix2 1 = 2) by (rewrite bpow_1; reflexivity); specialize (X ltac:(lia)); lra).
  assert (B : 64 <= bpow radix2 emax) by (assert (X : bpow radix2 6 = 64) by (rewrite bpow_powerRZ; change (IZR radix2) with 2; change (powerRZ 2 6) with (2 ^ 6); ring); rewrite <- X; apply bpow_le; lia).
  eapply Rle_lt_trans; [apply Rabs_triang|]. rewrite Rabs_mult.
  assert (Rabs (1 + d) <= 2) by (eapply Rle_trans; [apply Rabs_triang|]; rewrite Rabs_R1; lra).
  assert (Rabs z * Rabs (1 + d) <= 16 * 2) by (apply Rmult_le_compat; auto; apply Rabs_pos). lra.
Qed.
Lemma sub_small : forall x y, double x -> double y -> Rabs (value x - value y) <= 16 -> finite (SFsub prec emax x y).
Proof.
  intros x y HX HY. destruct (double_B x HX) as [a [<- FA]]. destruct (double_B y HY) as [b [<- FB]]. rewrite sub_B, !value_B. intros S.
  pose proof (Bminus_correct prec emax _ _ mode_NE a b FA FB) as C. rewrite Rlt_bool_true in C by (apply rnd_small; auto). apply finite_B. tauto.
Qed.
Lemma add_small : forall x y, double x -> double y -> Rabs (value x + value y) <= 16 -> finite (SFadd prec emax x y).
Proof.
  intros x y HX HY. destruct (double_B x HX) as [a [<- FA]]. destruct (double_B y HY) as [b [<- FB]]. rewrite add_B, !value_B. intros S.
  pose proof (Bplus_correct prec emax _ _ mode_NE a b FA FB) as C. rewrite Rlt_bool_true in C by (apply rnd_small; auto). apply finite_B. tauto.
Qed.
Lemma mul_small : forall x y, double x -> double y -> Rabs (value x * value y) <= 16 -> finite (SFmul prec emax x y).
Proof.
  intros x y HX HY. destruct (double_B x HX) as [a [<- FA]]. destruct (double_B y HY) as [b [<- FB]]. rewrite mul_B, !value_B. intros S.
  pose proof (Bmult_correct prec emax _ _ mode_NE a b) as C. rewrite Rlt_bool_true in C by (apply rnd_small; auto). apply finite_B.
  destruct C as [_ [C _]]. rewrite C, FA, FB. reflexivity.
Qed.
Lemma sqrt_small : forall x, double x -> not_below_zero x -> finite (SFsqrt prec emax x).
Proof.
  intros x HX. destruct (double_B x HX) as [a [<- FA]]. rewrite sqrt_B. intros S.
  pose proof (Bsqrt_correct prec emax _ _ mode_NE a) as [_ [C _]]. apply finite_B. rewrite C. destruct a as [s|s| |s m e Ha]; cbn in *; auto. rewrite S. reflexivity.
Qed.

(** ** results that need no rounding: integers of at most 53 bits times a power of two *)
Lemma rnd_exact : forall n e, (Z.abs n < 2 ^ 53)%Z -> (-1074 <= e <= 900)%Z -> rnd (IZR n * powerRZ 2 e) = IZR n * powerRZ 2 e /\ Rabs (IZR n * powerRZ 2 e) < bpow radix2 emax.
Proof.
  intros n e N E. change 2 with (IZR radix2). rewrite <- bpow_powerRZ. split.
  - apply round_generic; [apply valid_rnd_N|]. apply (generic_format_FLT radix2 (3 - emax - prec) prec). exists (Float radix2 n e); [reflexivity|exact N|cbn; lia].
  - rewrite Rabs_mult, (Rabs_right (bpow _ _)) by (apply Rle_ge, bpow_ge_0). apply Rlt_le_trans with (bpow radix2 53 * bpow radix2 e).
    + apply Rmult_lt_compat_r; [apply bpow_gt_0|]. rewrite <- abs_IZR. change (bpow radix2 53) with (IZR (2 ^ 53)). apply IZR_lt. auto.
    + rewrite <- bpow_plus. apply bpow_le. lia.
Qed.
Lemma add_exact : forall x y n e, double x -> double y -> value x + value y = IZR n * powerRZ 2 e -> (Z.abs n < 2 ^ 53)%Z -> (-1074 <= e <= 900)%Z ->
  double (SFadd prec emax x y) /\ value (SFadd prec emax x y) = value x + value y.
Proof.
  intros x y n e HX HY. destruct (double_B x HX) as [a [<- FA]]. destruct (double_B y HY) as [b [<- FB]]. rewrite add_B, !value_B. intros V N E.
  pose proof (Bplus_correct prec emax _ _ mode_NE a b FA FB) as C. destruct (rnd_exact n e N E) as [R1 R2]. rewrite V, R1, Rlt_bool_true in C by auto.
  destruct C as [C1 [C2 _]]. split; [apply B_double, finite_B; auto|]. rewrite C1. auto.
Qed.
Lemma sub_exact : forall x y n e, double x -> double y -> value x - value y = IZR n * powerRZ 2 e -> (Z.abs n < 2 ^ 53)%Z -> (-1074 <= e <= 900)%Z ->
  double (SFsub prec emax x y) /\ value (SFsub prec emax x y) = value x - value y.
Proof.
  intros x y n e HX HY. destruct (double_B x HX) as [a [<- FA]]. destruct (double_B y HY) as [b [<- FB]]. rewrite sub_B, !value_B. intros V N E.
  pose proof (Bminus_correct prec emax _ _ mode_NE a b FA FB) as C. destruct (rnd_exact n e N E) as [R1 R2]. rewrite V, R1, Rlt_bool_true in C by auto.
  destruct C as [C1 [C2 _]]. split; [apply B_double, finite_B; auto|]. rewrite C1. auto.
Qed.
Lemma mul_exact : forall x y n e, double x -> double y -> value x * value y = IZR n * powerRZ 2 e -> (Z.abs n < 2 ^ 53)%Z -> (-1074 <= e <= 900)%Z ->
  double (SFmul prec emax x y) /\ value (SFmul prec emax x y) = value x * value y.
Proof.
  intros x y n e HX HY. destruct (double_B x HX) as [a [<- FA]]. destruct (double_B y HY) as [b [<- FB]]. rewrite mul_B, !value_B. intros V N E.
  pose proof (Bmult_correct prec emax _ _ mode_NE a b) as C. destruct (rnd_exact n e N E) as [R1 R2]. rewrite V, R1, Rlt_bool_true in C by auto.
  destruct C as [C1 [C2 _]]. rewrite FA, FB in C2. split; [apply B_double, finite_B; auto|]. rewrite C1. auto.
Qed.
Lemma ofZ_exact : forall n, (Z.abs n < 2 ^ 53)%Z -> double (f64_ofZ n) /\ value (f64_ofZ n) = IZR n.
Proof.
  intros n N. unfold f64_ofZ. change f64_prec with 53%Z. change f64_emax with 1024%Z. rewrite normalize_eq, value_B.
  pose proof (binary_normalize_correct prec emax _ _ mode_NE n 0 false) as C. cbv zeta in C.
  assert (X : F2R (Float radix2 n 0) = IZR n * powerRZ 2 0) by (unfold F2R; cbn; ring). destruct (rnd_exact n 0 N) as [R1 R2]; [lia|].
  rewrite X, R1, Rlt_bool_true in C by auto. destruct C as [C1 [C2 _]]. split; [apply B_double, finite_B; auto|]. rewrite C1. cbn. ring.
Qed.
