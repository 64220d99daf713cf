(** C61: the mesher is started with what was asked for *)
From Coq Require Import String Ascii.
From Coq Require Import List Arith ZArith Bool Reals Lia Lra.
From Coq Require Import SpecFloat.
From Verif Require Import Base SwitchModel SwitchSpec Switch_proofs.
Import ListNotations.

(** within the buffer: the options, the angle and the area, exactly *)
Theorem C61_options : forall angle m e n i j, (0 <= angle)%Z -> rounds_to (area_of m e) n -> (1 <= n)%Z ->
  has_digits angle i -> has_digits (n / 10 ^ 17) j -> i + j <= 17 ->
  exists b, mesher_options angle (S754_finite false m e) = Ok b /\ (forall f, b_opt b f = expected f) /\
    value (b_minangle b) = IZR angle /\ value (b_maxarea b) = (IZR n / 10 ^ 17)%R /\
    (Rabs (value (b_maxarea b) - area_of m e) <= / 2 * / 10 ^ 17)%R.
Proof.
  intros angle m e n i j A R N I J W.
  pose proof (options_finite angle m e n i j R) as E. rewrite Z.abs_eq in E by exact A. unfold width, angle_used in E.
  destruct (Z.ltb_spec angle 0) as [L|L]; [lia|]. specialize (E I J W). destruct (Z.leb_spec n 0) as [Q|Q]; [lia|].
  eexists. split; [exact E|]. split; [apply limited_expected|]. split; [unfold value; cbn; lra|].
  assert (V : value (b_maxarea (finish (limited (mkDec angle 0) (mkDec n 17)))) = (IZR n / 10 ^ 17)%R) by reflexivity.
  split; [exact V|]. rewrite V. destruct R as [R _].
  replace (IZR n / 10 ^ 17 - area_of m e)%R with ((IZR n - area_of m e * 10 ^ 17) * / 10 ^ 17)%R by (field; apply pow_nonzero; lra).
  rewrite Rabs_mult. rewrite (Rabs_right (/ 10 ^ 17)) by (left; apply Rinv_0_lt_compat, pow_lt; lra).
  apply Rmult_le_compat_r; [left; apply Rinv_0_lt_compat, pow_lt; lra|exact R].
Qed.
Print Assumptions C61_options.

(** the string is written past its end exactly when angle and area have more than 17 digits before the point *)
Theorem C61_buffer : forall angle m e n i j, (0 <= angle)%Z -> rounds_to (area_of m e) n -> has_digits angle i -> has_digits (n / 10 ^ 17) j ->
  (is_ub (switches angle (S754_finite false m e)) <-> 17 < i + j) /\ (is_ok (switches angle (S754_finite false m e)) <-> i + j <= 17).
Proof.
  intros angle m e n i j A R I J. pose proof (rounds_nonneg m e n R) as N.
  pose proof (print_int_length angle i) as L1. rewrite Z.abs_eq in L1 by exact A. specialize (L1 I). unfold width in L1.
  destruct (Z.ltb_spec angle 0) as [L|_]; [lia|]. pose proof (print_units_length n j N J) as L2.
  assert (P : print_double (S754_finite false m e) = print_units n) by (cbn [print_double sign app]; rewrite (scaled_is m e n R); reflexivity).
  destruct (Nat.le_gt_cases (i + j) 17) as [K|K].
  - rewrite switches_fit by (rewrite P; lia). split; split; try lia; [intros [s E]; discriminate|intros _; eexists; reflexivity].
  - pose proof (switches_long angle (S754_finite false m e)) as U. rewrite P in U. specialize (U ltac:(lia)).
    split; split; try lia; [intros _; exact U|]. intros [s E]. destruct U as [t U]. rewrite U in E. discriminate.
Qed.
Print Assumptions C61_buffer.

(** the usual range: angles up to 99 degrees and areas from 1e-17 up to 1e15 - 1 *)
Theorem C61_usual : forall angle m e, (0 <= angle <= 99)%Z -> (/ 10 ^ 17 <= area_of m e <= 10 ^ 15 - 1)%R ->
  exists b, mesher_options angle (S754_finite false m e) = Ok b /\ (forall f, b_opt b f = expected f) /\
    value (b_minangle b) = IZR angle /\ (Rabs (value (b_maxarea b) - area_of m e) <= / 2 * / 10 ^ 17)%R.
Proof.
  intros angle m e A [L U]. destruct (scaled_spec m e) as [N R]. set (n := scaled (Z.pos m) e) in *.
  assert (P17 : (0 < 10 ^ 17)%R) by (apply pow_lt; lra).
  assert (X : (1 <= area_of m e * 10 ^ 17)%R) by (apply Rmult_le_compat_r with (r := (10 ^ 17)%R) in L; [rewrite Rinv_l in L by lra; exact L|lra]).
  destruct R as [R1 R2]. assert (B : (- / 2 <= IZR n - area_of m e * 10 ^ 17 <= / 2)%R) by (unfold Rabs in R1; destruct (Rcase_abs _); lra).
  assert (N1 : (1 <= n)%Z) by (assert (0 < n)%Z by (apply lt_IZR; lra); lia).
  assert (N2 : (n / 10 ^ 17 < 10 ^ 15)%Z).
  { apply Z.div_lt_upper_bound; [lia|]. apply lt_IZR. rewrite mult_IZR. rewrite <- !(pow_IZR 10 15), <- (pow_IZR 10 17) || idtac.
    change (IZR (10 ^ 17)) with (IZR 100000000000000000). change (IZR (10 ^ 15)) with (IZR 1000000000000000).
    apply Rmult_le_compat_r with (r := (10 ^ 17)%R) in U; [|lra]. replace (10 ^ 17)%R with 100000000000000000%R in * by lra. replace (10 ^ 15)%R with 1000000000000000%R in * by lra. lra. }
  assert (Dg : forall z k, (0 <= z < 10 ^ Z.of_nat k)%Z -> exists j, has_digits z j /\ (j <= S (pred k))).
  { clear. intros z k. induction k as [|k IH]; intro H.
    - exists 1. split; [|lia]. split; [lia|]. split; [change (10 ^ Z.of_nat 1)%Z with 10%Z; cbn in H; lia|left; reflexivity].
    - destruct (Z.lt_ge_cases z (10 ^ Z.of_nat k)) as [Q|Q].
      + destruct (IH ltac:(lia)) as [j [J K]]. exists j. split; [exact J|]. destruct k; cbn in *; lia.
      + exists (S k). split; [|cbn; lia]. split; [lia|]. split; [exact H|right; exact Q]. }
  destruct (Dg angle 2 ltac:(change (10 ^ Z.of_nat 2)%Z with 100%Z; lia)) as [i [I I']].
  destruct (Dg (n / 10 ^ 17)%Z 15 ltac:(split; [apply Z.div_pos; lia|exact N2])) as [j [J J']]. cbn in I', J'.
  destruct (C61_options angle m e n i j ltac:(lia) (conj R1 R2) N1 I J ltac:(lia)) as [b [E1 [E2 [E3 [_ E4]]]]].
  exists b. auto.
Qed.
Print Assumptions C61_usual.
Example C61_example : (exists b, mesher_options 33 (S754_finite false 1 0) = Ok b /\ value (b_minangle b) = 33%R /\ b_maxarea b = mkDec 100000000000000000 17) /\
  switches 33 (S754_finite false 1 (-1)) = Ok (list_ascii_of_string "pzq33AQa0.50000000000000000").
Proof. split; [eexists; split; [vm_compute; reflexivity|split; [unfold value; cbn; lra|reflexivity]]|vm_compute; reflexivity]. Qed.

(** the process ends for a maximum area that rounds to 0 *)
Theorem C61_small : forall angle m e i, (0 <= angle)%Z -> has_digits angle i -> i <= 16 -> (area_of m e <= / 2 * / 10 ^ 17)%R ->
  is_ub (mesher_options angle (S754_finite false m e)).
Proof.
  intros angle m e i A I W S. assert (P17 : (0 < 10 ^ 17)%R) by (apply pow_lt; lra).
  assert (X : (area_of m e * 10 ^ 17 <= / 2)%R) by (apply Rmult_le_compat_r with (r := (10 ^ 17)%R) in S; [rewrite Rmult_assoc, Rinv_l in S by lra; lra|lra]).
  assert (Y : (0 < area_of m e)%R) by (unfold area_of; apply Rmult_lt_0_compat; [apply IZR_lt; lia|apply powerRZ_lt; lra]).
  assert (Y' : (0 < area_of m e * 10 ^ 17)%R) by (apply Rmult_lt_0_compat; assumption).
  assert (R : rounds_to (area_of m e) 0).
  { split; [unfold Rabs; destruct (Rcase_abs _); lra|reflexivity]. }
  pose proof (options_finite angle m e 0 i 1 R) as E. rewrite Z.abs_eq in E by exact A. unfold width in E.
  destruct (Z.ltb_spec angle 0) as [L|_]; [lia|]. rewrite E; [eexists; reflexivity|exact I| |lia].
  split; [lia|]. split; [cbn; lia|left; reflexivity].
Qed.
Print Assumptions C61_small.
(** a negative angle asks for 20 degrees; a negative area, an infinite one or NaN lifts the limit *)
Theorem C61_negative_angle : forall angle m e n i j, (angle < 0)%Z -> rounds_to (area_of m e) n -> (1 <= n)%Z ->
  has_digits (- angle) i -> has_digits (n / 10 ^ 17) j -> S i + j <= 17 ->
  exists b, mesher_options angle (S754_finite false m e) = Ok b /\ value (b_minangle b) = 20%R /\ (forall f, b_opt b f = expected f).
Proof.
  intros angle m e n i j A R N I J W. pose proof (options_finite angle m e n i j R) as E. rewrite Z.abs_neq in E by lia. unfold width, angle_used in E.
  destruct (Z.ltb_spec angle 0) as [_|L]; [|lia]. specialize (E I J W). destruct (Z.leb_spec n 0) as [Q|_]; [lia|].
  eexists. split; [exact E|]. split; [unfold value; cbn; lra|apply limited_expected].
Qed.
Print Assumptions C61_negative_angle.
Theorem C61_negative_area : forall angle m e n i j, (0 <= angle)%Z -> rounds_to (area_of m e) n -> has_digits angle i -> has_digits (n / 10 ^ 17) j ->
  i + j <= 16 -> exists b, mesher_options angle (S754_finite true m e) = Ok b /\ (forall f, b_opt b f = unlimited f) /\ value (b_maxarea b) = (-1)%R.
Proof.
  intros angle m e n i j A R I J W. pose proof (options_negative angle m e n i j R) as E. rewrite Z.abs_eq in E by exact A. unfold width in E.
  destruct (Z.ltb_spec angle 0) as [L|_]; [lia|]. specialize (E I J W). eexists. split; [exact E|]. split; [apply free_expected|unfold value; cbn; lra].
Qed.
Print Assumptions C61_negative_area.
(** the claim is false at both ends of the range of areas, for negative angles and for areas that are no positive number *)
Theorem C61_refuted : is_ub (switches 33 (S754_finite false 1 54)) /\ is_ub (mesher_options 33 (S754_finite false 1 (-60))) /\
  (exists b, mesher_options (-5) (S754_finite false 1 0) = Ok b /\ b_minangle b = mkDec 20 0) /\
  (exists b, mesher_options 33 (S754_infinity false) = Ok b /\ b_opt b fixedarea = 0%Z /\ b_opt b incremental = 1%Z /\ b_opt b neighbors = 1%Z) /\
  (exists b, mesher_options 33 S754_nan = Ok b /\ b_opt b fixedarea = 0%Z /\ b_opt b neighbors = 1%Z).
Proof.
  split; [eexists; vm_compute; reflexivity|]. split; [eexists; vm_compute; reflexivity|].
  split; [eexists; split; [vm_compute; reflexivity|reflexivity]|].
  split; (eexists; split; [vm_compute; reflexivity|repeat split]).
Qed.
Print Assumptions C61_refuted.
