(** C109, C110: the mesh generator's orientation and incircle tests in binary64, as far as their first stage decides. *)
From Coq Require Import List Arith ZArith NArith Bool Lia Reals Lra.
From Coq Require Import Floats.SpecFloat.
From Verif Require Import Base GeometryModel GeometrySpec FloatSpec FloatBound_proofs Geometry_proofs RoundSpec Round_proofs RoundUse_proofs Segment_proofs Polygon_proofs RoundGrid_proofs PredicateModel PredicateSpec Predicate_proofs Incircle_proofs Props_Round.
Import ListNotations.
Local Open Scope R_scope.
Local Notation fvec := (vec FOps).

(** *** the constants found at start-up *)
Theorem C109_constants : (forall fuel, (60 <= fuel)%nat -> exists B, exactinit FOps fuel fhalf = Some B) /\
  (forall fuel B, exactinit FOps fuel fhalf = Some B -> value (epsilon FOps B) = u /\ value (splitter FOps B) = powerRZ 2 27 + 1 /\
    value (ccwerrboundA FOps B) = (3 + 16 * u) * u /\ value (iccerrboundA FOps B) = (10 + 96 * u) * u).
Proof.
  split.
  - intros fuel H. unfold exactinit. replace fuel with (60 + (fuel - 60))%nat by lia. rewrite (init_mono _ _ _ _ _ _ _ _ _ init_53). eexists. reflexivity.
  - intros fuel B H. destruct (bounds_value _ _ H) as [-> [-> [-> ->]]]. split; [|split; [|split; [apply boundA_value|apply boundI_value]]].
    + unfold value, u. change (-53)%Z with (52 + -105)%Z. rewrite powerRZ_add by lra. change (powerRZ 2 52) with (2 ^ 52). rewrite pow_IZR. change (2 ^ Z.of_nat 52)%Z with (Z.pos (2 ^ 52)). ring.
    + unfold value. change (powerRZ 2 (-25)) with (/ 2 ^ 25). change (powerRZ 2 27) with (2 ^ 27). rewrite !pow_IZR.
      change (2 ^ Z.of_nat 25)%Z with 33554432%Z. change (2 ^ Z.of_nat 27)%Z with 134217728%Z. lra.
Qed.
Print Assumptions C109_constants.

(** *** orientation: whenever the first stage returns, the sign is that of the exact determinant *)
Theorem C109_sign : forall fuel B (pa pb pc : fvec) det, exactinit FOps fuel fhalf = Some B -> in_range 400 480 pa -> in_range 400 480 pb -> in_range 400 480 pc ->
  counterclockwise FOps B false pa pb pc = Returned det -> double det /\ same_sign (value det) (turn (place pa) (place pb) (place pc)).
Proof. exact ccw_sign. Qed.
Print Assumptions C109_sign.
(** the adaptive stage is called only for points that are nearly in line, and is given the magnitude of the terms *)
Theorem C109_adaptive : forall fuel B (pa pb pc : fvec) s, exactinit FOps fuel fhalf = Some B -> in_range 400 480 pa -> in_range 400 480 pb -> in_range 400 480 pc ->
  counterclockwise FOps B false pa pb pc = Adaptive s ->
  let L := (value (vx pa) - value (vx pc)) * (value (vy pb) - value (vy pc)) in let R := (value (vy pa) - value (vy pc)) * (value (vx pb) - value (vx pc)) in
  Rabs (turn (place pa) (place pb) (place pc)) <= 8 * u * (Rabs L + Rabs R) /\ double s /\ Rabs (value s - (Rabs L + Rabs R)) <= 8 * u * (Rabs L + Rabs R).
Proof. exact ccw_adaptive. Qed.
Print Assumptions C109_adaptive.

(** the range is no small one: a number that is 0 or not below 2^(53-low) is a multiple of 2^-low *)
Theorem C109_range : forall low x, double x -> value x = 0 \/ powerRZ 2 (53 - low) <= Rabs (value x) -> multiple low x.
Proof.
  intros low x [F V] H. destruct x as [s|s| |s m e]; try (destruct F); [exists 0%Z; cbn; ring|]. cbn [valid_binary bounded] in V.
  assert (P2 : forall k, 0 < powerRZ 2 k) by (intros; apply powerRZ_lt; lra). pose proof (P2 e) as Pe.
  assert (Q : (IZR (Z.pos m) < 2 ^ 53)%R).
  { rewrite pow_IZR. apply IZR_lt. change (2 ^ Z.of_nat 53)%Z with (2 ^ 53)%Z. unfold bounded, canonical_mantissa in V. apply andb_prop in V. destruct V as [V V2]. apply Zeq_bool_eq in V.
    apply Zle_bool_imp_le in V2. unfold fexp, emin in V. destruct (digits_bound m) as [_ D]. eapply Z.lt_le_trans; [exact D|]. apply Z.pow_le_mono_r; lia. }
  assert (PM : 0 < IZR (Z.pos m)) by (apply IZR_lt; lia).
  assert (A : Rabs (value (S754_finite s m e)) = IZR (Z.pos m) * powerRZ 2 e).
  { unfold value. destruct s; [rewrite Rabs_left by nra|rewrite Rabs_right by nra]; ring. }
  assert (E : (- low <= e)%Z).
  { destruct H as [H|H].
    - exfalso. rewrite H, Rabs_R0 in A. assert (0 < IZR (Z.pos m) * powerRZ 2 e) by (apply Rmult_lt_0_compat; auto). lra.
    - rewrite A in H. destruct (Z_lt_le_dec e (- low)) as [G|G]; auto. exfalso.
      assert (Y : powerRZ 2 e <= powerRZ 2 (- low)) by (rewrite !powerRZ_Rpower by lra; apply Rle_Rpower; [lra|apply IZR_le; lia]).
      assert (Z1 : powerRZ 2 (53 - low) = 2 ^ 53 * powerRZ 2 (- low)) by (unfold Z.sub; rewrite powerRZ_add by lra; reflexivity).
      rewrite Z1 in H. assert (Y2 : IZR (Z.pos m) * powerRZ 2 e < 2 ^ 53 * powerRZ 2 (- low)) by (apply Rlt_le_trans with (2 ^ 53 * powerRZ 2 e); [apply Rmult_lt_compat_r; auto|apply Rmult_le_compat_l; auto; apply pow_le; lra]). lra. }
  exists ((if s then -1 else 1) * Z.pos m * 2 ^ (e + low))%Z. unfold value. rewrite !mult_IZR.
  assert (W : IZR (2 ^ (e + low)) * powerRZ 2 (- low) = powerRZ 2 e).
  { rewrite <- (Z2Nat.id (e + low)) by lia. rewrite <- pow_IZR, pow_powerRZ. rewrite <- powerRZ_add by lra. f_equal. lia. }
  rewrite <- W. destruct s; cbv iota; ring.
Qed.
Print Assumptions C109_range.

Lemma whole_range : forall x y top low, (Z.abs x < 2 ^ 53)%Z -> (Z.abs y < 2 ^ 53)%Z -> (0 <= low)%Z -> below top (f64_ofZ x) -> below top (f64_ofZ y) -> in_range top low (whole x y).
Proof.
  intros x y top low HX HY HL BX BY. destruct (whole_place x y HX HY) as [D E]. destruct (ofZ_exact x HX) as [_ E1], (ofZ_exact y HY) as [_ E2].
  assert (M : forall n, exists k, IZR n = IZR k * powerRZ 2 (- low)).
  { intros n. exists (n * 2 ^ low)%Z. rewrite mult_IZR, Rmult_assoc. rewrite <- (Z2Nat.id low) by lia. rewrite <- pow_IZR, pow_powerRZ, <- powerRZ_add by lra.
    rewrite Z.add_opp_diag_r. cbn [powerRZ]. ring. }
  split; [exact D|]. split; [split; [exact BX|exact BY]|]. unfold multiple, whole. cbn [vx vy]. rewrite E1, E2. split; apply M.
Qed.
Definition decided (s : stage FOps) : f64 + f64 := match s with Returned d => inl d | Adaptive m => inr m end.
(** a corner, decided by the first stage, and three points almost in line, left to the adaptive stage *)
Example C109_cases : exists B, exactinit FOps 60 fhalf = Some B /\
  Forall (in_range 400 480) [whole 0 0; whole 3 1; whole 1 2; whole 100000001 100000000; whole 100000000 99999999] /\
  decided (counterclockwise FOps B false (whole 0 0) (whole 3 1) (whole 1 2)) = inl (f64_ofZ 5) /\
  decided (counterclockwise FOps B false (whole 1 2) (whole 3 1) (whole 0 0)) = inl (f64_ofZ (-5)) /\
  decided (counterclockwise FOps B false (whole 100000001 100000000) (whole 100000000 99999999) (whole 0 0)) = inr (f64_ofZ 19999999999999999).
Proof.
  destruct (proj1 C109_constants 60%nat (le_n _)) as [B E]. exists B. split; [exact E|].
  assert (L : (0 <= 480)%Z) by lia. split.
  - repeat (apply Forall_cons; [apply whole_range; auto; try reflexivity; try exact I; (split; [vm_compute; intros X; discriminate X|reflexivity])|]). apply Forall_nil.
  - destruct (bounds_value _ _ E) as [_ [_ [EA _]]]. unfold counterclockwise. rewrite EA. clear. split; [vm_compute; reflexivity|]. split; vm_compute; reflexivity.
Qed.

(** *** without the range: products that underflow make a proper triangle look degenerate *)
Theorem C109_underflow_refuted : exists (pa pb pc : fvec) B, exactinit FOps 60 fhalf = Some B /\ double_point pa /\ double_point pb /\ double_point pc /\
  decided (counterclockwise FOps B false pa pb pc) = inl (S754_zero false) /\ 0 < turn (place pa) (place pb) (place pc).
Proof.
  set (t := S754_finite false (2 ^ 52) (-652) : f64). set (z := S754_zero false : f64).
  exists (@mkV FOps t z), (@mkV FOps z t), (@mkV FOps z z). destruct (proj1 C109_constants 60%nat (le_n _)) as [B E]. exists B. split; [exact E|].
  assert (DT : double t) by (split; [exact I|reflexivity]). assert (DZ : double z) by (split; [exact I|reflexivity]).
  split; [split; auto|]. split; [split; auto|]. split; [split; auto|]. split; [unfold counterclockwise; clear; vm_compute; reflexivity|].
  unfold turn, place, px, py. cbn [vx vy]. change (value z) with 0.
  assert (P : 0 < value t) by (unfold t, value; rewrite Rmult_1_l; apply Rmult_lt_0_compat; [apply IZR_lt; reflexivity|apply powerRZ_lt; lra]). nra.
Qed.
Print Assumptions C109_underflow_refuted.
(** *** with the option that switches exact arithmetic off (not used by the library) the sign may be lost *)
Theorem C109_noexact_refuted : exists (pa pb pc : fvec) B, exactinit FOps 60 fhalf = Some B /\ in_range 400 480 pa /\ in_range 400 480 pb /\ in_range 400 480 pc /\
  decided (counterclockwise FOps B true pa pb pc) = inl (S754_zero false) /\ turn (place pa) (place pb) (place pc) = -1.
Proof.
  exists (whole 134217729 134217728), (whole 134217728 134217727), (whole 0 0). destruct (proj1 C109_constants 60%nat (le_n _)) as [B E]. exists B. split; [exact E|].
  assert (L : (0 <= 480)%Z) by lia.
  do 3 (split; [apply whole_range; auto; try reflexivity; try exact I; (split; [vm_compute; intros X; discriminate X|reflexivity])|]).
  split; [unfold counterclockwise; clear; vm_compute; reflexivity|].
  destruct (whole_place 134217729 134217728 eq_refl eq_refl) as [_ ->]. destruct (whole_place 134217728 134217727 eq_refl eq_refl) as [_ ->]. destruct (whole_place 0 0 eq_refl eq_refl) as [_ ->].
  unfold turn. change (px (P 134217729 134217728)) with 134217729. change (py (P 134217729 134217728)) with 134217728. change (px (P 134217728 134217727)) with 134217728.
  change (py (P 134217728 134217727)) with 134217727. change (px (P 0 0)) with 0. change (py (P 0 0)) with 0. lra.
Qed.
Print Assumptions C109_noexact_refuted.

(** *** incircle *)
(** the determinant is the power of d with respect to the circle, times the signed area *)
Theorem C110_meaning : forall (a b c d m : pt) (r2 : R),
  (px a - px m) * (px a - px m) + (py a - py m) * (py a - py m) = r2 -> (px b - px m) * (px b - px m) + (py b - py m) * (py b - py m) = r2 ->
  (px c - px m) * (px c - px m) + (py c - py m) * (py c - py m) = r2 ->
  power2 a b c d = turn a b c * (r2 - ((px d - px m) * (px d - px m) + (py d - py m) * (py d - py m))).
Proof.
  intros a b c d m r2 HA HB HC. set (k := r2 - ((px d - px m) * (px d - px m) + (py d - py m) * (py d - py m))).
  assert (S : forall p, (px p - px m) * (px p - px m) + (py p - py m) * (py p - py m) = r2 ->
    (px p - px d) * (px p - px d) + (py p - py d) * (py p - py d) = k - 2 * ((px p - px d) * (px d - px m) + (py p - py d) * (py d - py m))).
  { intros p H. unfold k. rewrite <- H. ring. }
  unfold power2. cbv zeta. rewrite (S a HA), (S b HB), (S c HC). clearbody k. unfold turn. ring.
Qed.
Print Assumptions C110_meaning.
Theorem C110_sign : forall fuel B (pa pb pc pd : fvec) det, exactinit FOps fuel fhalf = Some B ->
  in_range 200 200 pa -> in_range 200 200 pb -> in_range 200 200 pc -> in_range 200 200 pd ->
  incircle FOps B false pa pb pc pd = Returned det -> double det /\ value det <> 0 /\ same_sign (value det) (power2 (place pa) (place pb) (place pc) (place pd)).
Proof. exact incircle_sign. Qed.
Print Assumptions C110_sign.
(** for a counterclockwise triangle: a positive result means that d is inside the circle through the corners, a negative one that it is outside *)
Theorem C110_inside : forall fuel B (pa pb pc pd : fvec) det (m : pt) (r : R), exactinit FOps fuel fhalf = Some B ->
  in_range 200 200 pa -> in_range 200 200 pb -> in_range 200 200 pc -> in_range 200 200 pd ->
  incircle FOps B false pa pb pc pd = Returned det -> 0 < turn (place pa) (place pb) (place pc) ->
  dist m (place pa) = r -> dist m (place pb) = r -> dist m (place pc) = r ->
  (0 < value det <-> dist m (place pd) < r) /\ (value det < 0 <-> r < dist m (place pd)).
Proof.
  intros fuel B pa pb pc pd det m r EB Ra Rb Rc Rd H T DA DB DC. destruct (incircle_sign fuel B pa pb pc pd det EB Ra Rb Rc Rd H) as [_ [_ S]].
  assert (SQ : forall p, dist m p * dist m p = (px p - px m) * (px p - px m) + (py p - py m) * (py p - py m)) by (intros p; rewrite dist_sq; ring).
  assert (PO : forall p, 0 <= dist m p) by (intros p; unfold dist; apply sqrt_pos).
  rewrite (C110_meaning (place pa) (place pb) (place pc) (place pd) m (r * r)) in S.
  2: { rewrite <- SQ, DA. reflexivity. }
  2: { rewrite <- SQ, DB. reflexivity. }
  2: { rewrite <- SQ, DC. reflexivity. }
  rewrite <- SQ in S. pose proof (PO (place pd)) as P1. pose proof (PO (place pa)) as P2. rewrite DA in P2.
  set (t := turn _ _ _) in *. set (q := dist m (place pd)) in *. clearbody t q. destruct S as [S1 S2]. clear - S1 S2 P1 P2 T. rewrite S1, S2.
  assert (F : r * r - q * q = (r - q) * (r + q)) by ring. rewrite F. split; split; intros G.
  - destruct (Rlt_le_dec q r) as [L|L]; auto. exfalso. assert ((r - q) * (r + q) <= 0) by nra. nra.
  - apply Rmult_lt_0_compat; auto. apply Rmult_lt_0_compat; lra.
  - destruct (Rlt_le_dec r q) as [L|L]; auto. exfalso. assert (0 <= (r - q) * (r + q)) by nra. nra.
  - assert (0 < (q - r) * (r + q)) by (apply Rmult_lt_0_compat; lra). nra.
Qed.
Print Assumptions C110_inside.
(** the corners (5, 0), (3, 4), (-4, 3) of a circle around 0: a point inside, one outside, and one on the circle, left to the adaptive stage *)
Example C110_cases : exists B, exactinit FOps 60 fhalf = Some B /\ Forall (in_range 200 200) [whole 5 0; whole 3 4; whole (-4) 3; whole 1 1; whole 6 6; whole 0 (-5)] /\
  decided (incircle FOps B false (whole 5 0) (whole 3 4) (whole (-4) 3) (whole 1 1)) = inl (f64_ofZ 690) /\
  decided (incircle FOps B false (whole 5 0) (whole 3 4) (whole (-4) 3) (whole 6 6)) = inl (f64_ofZ (-1410)) /\
  (exists s, decided (incircle FOps B false (whole 5 0) (whole 3 4) (whole (-4) 3) (whole 0 (-5))) = inr s).
Proof.
  destruct (proj1 C109_constants 60%nat (le_n _)) as [B E]. exists B. split; [exact E|].
  assert (L : (0 <= 200)%Z) by lia. split.
  - repeat (apply Forall_cons; [apply whole_range; auto; try reflexivity; try exact I; (split; [vm_compute; intros X; discriminate X|reflexivity])|]). apply Forall_nil.
  - destruct (bounds_value _ _ E) as [_ [_ [_ EA]]]. unfold incircle. rewrite EA. clear. split; [vm_compute; reflexivity|]. split; [vm_compute; reflexivity|]. eexists. vm_compute. reflexivity.
Qed.
