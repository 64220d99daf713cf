(** The first stage of the mesh generator's orientation test in binary64. *)
From Coq Require Import List Arith ZArith NArith Bool Lia Reals Lra Psatz.
From Coq Require Import Floats.SpecFloat.
From Flocq Require Import Core BinarySingleNaN Relative.
From Verif Require Import Base GeometryModel GeometrySpec FloatSpec Float_proofs FloatBound_proofs RoundSpec Round_proofs RoundUse_proofs PredicateModel PredicateSpec.
Import ListNotations.
Local Open Scope R_scope.
Local Notation prec := 53%Z.
Local Notation emax := 1024%Z.
#[local] Existing Instance Round_proofs.Hprec.
#[local] Existing Instance Round_proofs.Hmax.
Local Notation rnd := (round radix2 (SpecFloat.fexp prec emax) (round_mode mode_NE)).

(** ** the constants *)
Definition fhalf : f64 := S754_finite false (2 ^ 52) (-53).
Lemma init_mono : forall (o : Ops) h f k b e s c r, init_loop o f h b e s c = Some r -> init_loop o (f + k) h b e s c = Some r.
Proof.
  intros o h. induction f as [|f IH]; intros k b e s c r H; [discriminate|]. cbn [init_loop plus] in *. destruct (_ && _); auto.
Qed.
Lemma init_same : forall (o : Ops) h f f' b e s c r r', init_loop o f h b e s c = Some r -> init_loop o f' h b e s c = Some r' -> r = r'.
Proof. intros o h f f' b e s c r r' H H'. apply (init_mono o h f f') in H. apply (init_mono o h f' f) in H'. rewrite Nat.add_comm in H'. congruence. Qed.
Lemma init_53 : init_loop FOps 60 fhalf true (one FOps) (one FOps) (one FOps) = Some (S754_finite false (2 ^ 52) (-105), S754_finite false (2 ^ 52) (-25)).
Proof. vm_compute. reflexivity. Qed.
Lemma some_eq : forall A (a b : A), Some a = Some b -> a = b. Proof. intros A a b H. injection H as H. exact H. Qed.
Lemma bounds_value : forall fuel B, exactinit FOps fuel fhalf = Some B ->
  epsilon FOps B = S754_finite false (2 ^ 52) (-105) /\ splitter FOps B = S754_finite false 4503599660924928 (-25) /\
  ccwerrboundA FOps B = S754_finite false 6755399441055748 (-104) /\ iccerrboundA FOps B = S754_finite false 5629499534213126 (-102).
Proof.
  intros fuel B H. unfold exactinit in H. destruct (init_loop FOps fuel fhalf true (one FOps) (one FOps) (one FOps)) as [[e s]|] eqn:E; [|discriminate].
  pose proof (init_same _ _ _ _ _ _ _ _ _ _ E init_53) as Q. injection Q as -> ->. apply some_eq in H. rewrite <- H. cbn [epsilon splitter ccwerrboundA iccerrboundA].
  repeat split; vm_compute; reflexivity.
Qed.

(** ** products that do not underflow *)
Lemma mul_norm : forall x y, double x -> double y -> finite (SFmul prec emax x y) ->
  value x * value y = 0 \/ powerRZ 2 (-1022) <= Rabs (value x * value y) -> double (SFmul prec emax x y) /\
  exists d, Rabs d <= u /\ value (SFmul prec emax x y) = value x * value y * (1 + d).
Proof.
  intros x y HX HY. destruct (double_B x HX) as [a [<- FA]]. destruct (double_B y HY) as [b [<- FB]]. rewrite mul_B, !value_B. intros F N.
  split; [apply B_double; auto|]. pose proof (Bmult_correct prec emax _ _ mode_NE a b) as C.
  destruct (Rlt_bool _ _).
  - destruct C as [C _]. rewrite C. destruct N as [N|N].
    + exists 0. rewrite Rabs_R0. split; [apply Rlt_le, u_pos|]. rewrite N, round_0 by typeclasses eauto. ring.
    + destruct (relative_error_N_FLT_ex radix2 (3 - emax - prec) prec eq_refl (fun n => negb (Z.even n)) (B2R a * B2R b)) as [d [D E]].
      * rewrite bpow_powerRZ. exact N.
      * exists d. rewrite u_half in D. split; auto.
  - exfalso. eapply overflow_inf; eauto.
Qed.

(** ** comparisons *)
Lemma geb_value : forall x y, double x -> double y -> geb FOps x y = true <-> value y <= value x.
Proof.
  intros x y DX DY. unfold geb. cbn [ltb eqb FOps]. rewrite orb_true_iff, (ltb_value y x DY DX), (eqb_value x y DX DY). split; [intros [H|H]; lra|]. intros H.
  destruct (Rle_lt_or_eq_dec _ _ H); auto.
Qed.
Lemma leb_value : forall x y, double x -> double y -> leb FOps x y = true <-> value x <= value y.
Proof.
  intros x y DX DY. unfold leb. cbn [ltb eqb FOps]. rewrite orb_true_iff, (ltb_value x y DX DY), (eqb_value x y DX DY). split; [intros [H|H]; lra|]. intros H.
  destruct (Rle_lt_or_eq_dec _ _ H); auto.
Qed.
Lemma zero_double : double (zero FOps). Proof. split; [exact I|reflexivity]. Qed.

(** ** differences of multiples *)
Lemma pow2_pos : forall k, 0 < powerRZ 2 k. Proof. intros. apply powerRZ_lt. lra. Qed.
Lemma diff_multiple : forall k x y, multiple k x -> multiple k y -> value x - value y = 0 \/ powerRZ 2 (- k) <= Rabs (value x - value y).
Proof.
  intros k x y [n Hx] [m Hy]. rewrite Hx, Hy. replace (IZR n * powerRZ 2 (- k) - IZR m * powerRZ 2 (- k)) with (IZR (n - m) * powerRZ 2 (- k)) by (rewrite minus_IZR; ring).
  destruct (Z.eq_dec (n - m) 0) as [E|E]; [left; rewrite E; ring|right].
  rewrite Rabs_mult, (Rabs_right (powerRZ 2 (- k))) by (apply Rle_ge, Rlt_le, pow2_pos). rewrite <- (Rmult_1_l (powerRZ 2 (- k))) at 1.
  apply Rmult_le_compat_r; [apply Rlt_le, pow2_pos|]. rewrite <- abs_IZR. apply IZR_le. lia.
Qed.
Lemma near_one : forall d, Rabs d <= u -> 1 - u <= 1 + d <= 1 + u.
Proof. intros d H. apply Rabs_le_inv in H. lra. Qed.
Lemma mul_between : forall a b x y x' y', 0 <= x -> 0 <= y -> x <= a <= x' -> y <= b <= y' -> x * y <= a * b <= x' * y'.
Proof. intros. split; apply Rmult_le_compat; lra. Qed.
Lemma u_small : 0 < u <= / 1000. Proof. split; [apply u_pos|]. rewrite u_num. lra. Qed.
Lemma sub_ok : forall top k x y, double x -> double y -> below top x -> below top y -> multiple k x -> multiple k y -> (-900 <= top <= 890)%Z ->
  let d := SFsub prec emax x y in
  double d /\ below (top + 2) d /\ exists f, 1 - u <= f <= 1 + u /\ value d = (value x - value y) * f /\ (value d = 0 \/ powerRZ 2 (- k) / 2 <= Rabs (value d)).
Proof.
  intros top k x y DX DY BX BY MX MY HT d. assert (B : below (top + 2) d) by (apply sub_below; auto).
  destruct (sub_err x y DX DY (below_finite _ _ B)) as [D [e [He E]]]. split; [exact D|]. split; [exact B|].
  pose proof (near_one e He) as NE. exists (1 + e). split; [exact NE|]. split; [exact E|]. fold d in E. rewrite E.
  pose proof u_small. destruct (diff_multiple k x y MX MY) as [Z|Z]; [left; rewrite Z; ring|right].
  rewrite Rabs_mult, (Rabs_right (1 + e)) by lra. pose proof (pow2_pos (- k)). nra.
Qed.
Lemma prod_ok : forall top k p q r s, double p -> double q -> double r -> double s -> below top p -> below top q -> below top r -> below top s ->
  multiple k p -> multiple k q -> multiple k r -> multiple k s -> (0 <= top <= 400)%Z -> (0 <= k <= 500)%Z ->
  let m := SFmul prec emax (SFsub prec emax p q) (SFsub prec emax r s) in
  double m /\ below (2 * top + 5) m /\ exists f, (1 - u) ^ 3 <= f <= (1 + u) ^ 3 /\ value m = (value p - value q) * (value r - value s) * f /\
    (value m = 0 \/ powerRZ 2 (- (2 * k)) / 8 <= Rabs (value m)).
Proof.
  intros top k p q r s Dp Dq Dr Ds Bp Bq Br Bs Mp Mq Mr Ms HT HK m.
  destruct (sub_ok top k p q Dp Dq Bp Bq Mp Mq ltac:(lia)) as [D1 [B1 [f1 [F1 [E1 L1]]]]].
  destruct (sub_ok top k r s Dr Ds Br Bs Mr Ms ltac:(lia)) as [D2 [B2 [f2 [F2 [E2 L2]]]]].
  assert (B : below (2 * top + 5) m) by (apply below_mono with (top + 2 + (top + 2) + 1)%Z; [apply mul_below; auto; lia|lia]).
  assert (K2 : powerRZ 2 (- (2 * k)) = powerRZ 2 (- k) * powerRZ 2 (- k)) by (rewrite <- powerRZ_add by lra; f_equal; lia).
  pose proof (pow2_pos (- k)) as PK.
  assert (N : value (SFsub prec emax p q) * value (SFsub prec emax r s) = 0 \/ powerRZ 2 (- (2 * k)) / 4 <= Rabs (value (SFsub prec emax p q) * value (SFsub prec emax r s))).
  { destruct L1 as [Z|Z]; [left; rewrite Z; ring|]. destruct L2 as [Y|Y]; [left; rewrite Y; ring|]. right. rewrite Rabs_mult, K2.
    replace (powerRZ 2 (- k) * powerRZ 2 (- k) / 4) with (powerRZ 2 (- k) / 2 * (powerRZ 2 (- k) / 2)) by field. apply Rmult_le_compat; lra. }
  assert (N' : value (SFsub prec emax p q) * value (SFsub prec emax r s) = 0 \/ powerRZ 2 (-1022) <= Rabs (value (SFsub prec emax p q) * value (SFsub prec emax r s))).
  { destruct N as [Z|Z]; [left; exact Z|right]. eapply Rle_trans; [|exact Z].
    assert (Q : powerRZ 2 (- (2 * k)) / 4 = powerRZ 2 (- (2 * k) - 2)).
    { unfold Z.sub. rewrite powerRZ_add by lra. change (powerRZ 2 (- (2))) with (/ (2 * (2 * 1))). field. }
    rewrite Q. rewrite <- !(bpow_powerRZ radix2). apply bpow_le. lia. }
  destruct (mul_norm _ _ D1 D2 (below_finite _ _ B) N') as [D [d [Hd E]]]. split; [exact D|]. split; [exact B|].
  pose proof (near_one d Hd) as ND. pose proof u_small as U. exists (f1 * f2 * (1 + d)).
  assert (G1 : (1 - u) * (1 - u) <= f1 * f2 <= (1 + u) * (1 + u)) by (apply mul_between; lra).
  assert (G2 : (1 - u) * (1 - u) * (1 - u) <= f1 * f2 * (1 + d) <= (1 + u) * (1 + u) * (1 + u)) by (apply mul_between; nra).
  split; [cbn [pow]; lra|]. split; [unfold m; rewrite E, E1, E2; ring|].
  unfold m. rewrite E. destruct N as [Z|Z]; [left; rewrite Z; ring|right]. rewrite Rabs_mult, (Rabs_right (1 + d)) by lra.
  pose proof (pow2_pos (- (2 * k))). nra.
Qed.

(** ** the filter *)
Definition boundA : R := (3 + 16 * u) * u.
Lemma boundA_value : value (S754_finite false 6755399441055748 (-104)) = boundA.
Proof.
  unfold value, boundA. assert (P : powerRZ 2 (-104) = 4 * (u * u)).
  { unfold u. rewrite <- powerRZ_add by lra. change (-53 + -53)%Z with (-106)%Z. change (-104)%Z with (2 + -106)%Z. rewrite powerRZ_add by lra. change (powerRZ 2 2) with (2 * (2 * 1)). ring. }
  rewrite P, u_num. lra.
Qed.

(** l and r are the rounded products, L and R the exact ones *)
Lemma filter_core : forall l r L R f g d4 d5 d6, 0 < l -> 0 < r -> l = L * f -> r = R * g -> (1 - u) ^ 3 <= f <= (1 + u) ^ 3 -> (1 - u) ^ 3 <= g <= (1 + u) ^ 3 ->
  Rabs d4 <= u -> Rabs d5 <= u -> Rabs d6 <= u -> boundA * ((l + r) * (1 + d5)) * (1 + d6) <= (l - r) * (1 + d4) -> R < L.
Proof.
  intros l r L R f g d4 d5 d6 Pl Pr El Er Ff Fg H4 H5 H6 H.
  apply near_one in H4. apply near_one in H5. apply near_one in H6. pose proof u_small as U.
  assert (PA : 0 < boundA) by (unfold boundA; nra).
  assert (Fp : 0 < (1 - u) ^ 3) by (apply pow_lt; lra).
  assert (S0 : (l + r) * ((1 - u) * (1 - u)) <= (l + r) * ((1 + d5) * (1 + d6))) by (apply Rmult_le_compat_l; [lra|]; apply Rmult_le_compat; lra).
  assert (S1 : boundA * ((l + r) * ((1 - u) * (1 - u))) <= (l - r) * (1 + d4)).
  { eapply Rle_trans; [|exact H]. replace (boundA * ((l + r) * (1 + d5)) * (1 + d6)) with (boundA * ((l + r) * ((1 + d5) * (1 + d6)))) by ring. apply Rmult_le_compat_l; lra. }
  assert (S2 : 0 < l - r).
  { assert (0 < boundA * ((l + r) * ((1 - u) * (1 - u)))) by (repeat apply Rmult_lt_0_compat; lra). nra. }
  assert (S3 : boundA * ((l + r) * ((1 - u) * (1 - u))) <= (l - r) * (1 + u)) by (eapply Rle_trans; [exact S1|]; apply Rmult_le_compat_l; lra).
  destruct (Rlt_le_dec R L) as [G|G]; auto. exfalso.
  assert (PL : 0 < L) by nra. assert (PR : 0 < R) by lra.
  assert (Q1 : l <= R * (1 + u) ^ 3) by (rewrite El; apply Rmult_le_compat; lra).
  assert (Q2 : R * (1 - u) ^ 3 <= r) by (rewrite Er; apply Rmult_le_compat_l; lra).
  assert (Q3 : l * (1 - u) ^ 3 <= r * (1 + u) ^ 3).
  { apply Rle_trans with (R * (1 + u) ^ 3 * (1 - u) ^ 3); [apply Rmult_le_compat_r; lra|].
    replace (R * (1 + u) ^ 3 * (1 - u) ^ 3) with (R * (1 - u) ^ 3 * (1 + u) ^ 3) by ring. apply Rmult_le_compat_r; [|lra]. apply pow_le; lra. }
  assert (Q4 : (l - r) * (1 + 3 * (u * u)) <= (l + r) * (3 * u + u * (u * u))).
  { replace ((l - r) * (1 + 3 * (u * u))) with (l * (1 - u) ^ 3 - r * (1 + u) ^ 3 + (l + r) * (3 * u + u * (u * u))) by ring. lra. }
  assert (Q5 : boundA * ((l + r) * ((1 - u) * (1 - u))) * (1 + 3 * (u * u)) <= (l + r) * (3 * u + u * (u * u)) * (1 + u)).
  { apply Rle_trans with ((l - r) * (1 + u) * (1 + 3 * (u * u))); [apply Rmult_le_compat_r; [nra|exact S3]|].
    replace ((l - r) * (1 + u) * (1 + 3 * (u * u))) with ((l - r) * (1 + 3 * (u * u)) * (1 + u)) by ring. apply Rmult_le_compat_r; [lra|exact Q4]. }
  assert (Q6 : (3 * u + u * (u * u)) * (1 + u) < boundA * ((1 - u) * (1 - u)) * (1 + 3 * (u * u))) by (unfold boundA; rewrite u_num; lra).
  assert (Q7 : (l + r) * ((3 * u + u * (u * u)) * (1 + u)) < (l + r) * (boundA * ((1 - u) * (1 - u)) * (1 + 3 * (u * u)))) by (apply Rmult_lt_compat_l; lra).
  lra.
Qed.

Lemma errbound_ok : forall B s l r, ccwerrboundA FOps B = S754_finite false 6755399441055748 (-104) -> double s -> below 815 s -> 0 < l -> 0 < r -> powerRZ 2 (- (960)) / 8 <= l ->
  (exists d5, Rabs d5 <= u /\ value s = (l + r) * (1 + d5)) ->
  let e := mul FOps (ccwerrboundA FOps B) s in double e /\ 0 < value e /\ exists d5 d6, Rabs d5 <= u /\ Rabs d6 <= u /\ value e = boundA * ((l + r) * (1 + d5)) * (1 + d6).
Proof.
  intros B s l r EB Ds Bs Pl Pr Ll [d5 [H5 E5]] e. unfold e. rewrite EB. cbn [mul FOps]. change f64_prec with 53%Z. change f64_emax with 1024%Z.
  set (k := S754_finite false 6755399441055748 (-104)).
  assert (DK : double k) by (split; [exact I|reflexivity]).
  assert (BK : below 1 k) by (split; [lia|reflexivity]).
  assert (BM : below 817 (SFmul prec emax k s)) by (apply (mul_below 1 815); auto; lia).
  pose proof (near_one d5 H5) as N5. pose proof u_small as U.
  assert (BG : powerRZ 2 (-53) * 3 <= boundA) by (unfold boundA; fold u; nra).
  assert (N : powerRZ 2 (-1022) <= Rabs (value k * value s)).
  { unfold k. rewrite boundA_value, E5. rewrite Rabs_right.
    2: { apply Rle_ge. apply Rmult_le_pos; [unfold boundA; nra|]. apply Rmult_le_pos; lra. }
    apply Rle_trans with (powerRZ 2 (-53) * 3 * (powerRZ 2 (- (960)) / 8 * / 2)).
    - replace (powerRZ 2 (-53) * 3 * (powerRZ 2 (- (960)) / 8 * / 2)) with (3 * (powerRZ 2 (-53) * (powerRZ 2 (- (960)) * / 16))) by field.
      assert (X : / 16 = powerRZ 2 (-4)) by (change (powerRZ 2 (-4)) with (/ (2 * (2 * (2 * (2 * 1))))); field). rewrite X, <- !powerRZ_add by lra.
      change (-53 + (- (960) + -4))%Z with (-1017)%Z. assert (Y : powerRZ 2 (-1017) = powerRZ 2 5 * powerRZ 2 (-1022)) by (rewrite <- powerRZ_add by lra; reflexivity).
      rewrite Y. change (powerRZ 2 5) with (2 ^ 5). pose proof (pow2_pos (-1022)). lra.
    - pose proof (pow2_pos (-53)). pose proof (pow2_pos (- (960))). apply Rmult_le_compat; try lra. nra. }
  destruct (mul_norm k s DK Ds (below_finite _ _ BM) (or_intror N)) as [DM [d6 [H6 E6]]]. split; [exact DM|].
  assert (V : value (SFmul prec emax k s) = boundA * ((l + r) * (1 + d5)) * (1 + d6)) by (rewrite E6, E5; unfold k; rewrite boundA_value; reflexivity).
  split; [|exists d5, d6; auto]. rewrite V. apply near_one in H6. repeat apply Rmult_lt_0_compat; try lra; unfold boundA; nra.
Qed.

Lemma sign_factor : forall l L f, 0 < f -> l = L * f -> (0 < l -> 0 < L) /\ (l < 0 -> L < 0) /\ (l = 0 -> L = 0) /\ (l <= 0 -> L <= 0) /\ (0 <= l -> 0 <= L).
Proof.
  intros l L f Hf ->. assert (Z : L * f = 0 -> L = 0) by (intros H; apply Rmult_integral in H; destruct H; lra).
  repeat split; auto; intros H; destruct (Rtotal_order L 0) as [K|[K|K]]; try lra; nra.
Qed.
Lemma same_sign_cases : forall a b, (0 < a /\ 0 < b) \/ (a < 0 /\ b < 0) \/ (a = 0 /\ b = 0) -> same_sign a b.
Proof. intros a b H. unfold same_sign. lra. Qed.
(** sign of a rounded difference whose operands have opposite signs or one of which vanishes *)
Lemma ccw_sign : forall fuel B (pa pb pc : vec FOps) det, exactinit FOps fuel fhalf = Some B -> in_range 400 480 pa -> in_range 400 480 pb -> in_range 400 480 pc ->
  counterclockwise FOps B false pa pb pc = Returned det -> double det /\ same_sign (value det) (turn (place pa) (place pb) (place pc)).
Proof.
  intros fuel B pa pb pc det EB [[Dax Day] [[Bax Bay] [Max May]]] [[Dbx Dby] [[Bbx Bby] [Mbx Mby]]] [[Dcx Dcy] [[Bcx Bcy] [Mcx Mcy]]].
  destruct (bounds_value _ _ EB) as [_ [_ [EA _]]].
  destruct (prod_ok 400 480 (vx pa) (vx pc) (vy pb) (vy pc)) as [DL [BL [f [Ff [EL LL]]]]]; auto; try lia.
  destruct (prod_ok 400 480 (vy pa) (vy pc) (vx pb) (vx pc)) as [DR [BR [g [Fg [ER LR]]]]]; auto; try lia.
  unfold counterclockwise. cbv zeta beta. cbn [sub mul add opp zero FOps]. change f64_prec with 53%Z. change f64_emax with 1024%Z.
  set (l := SFmul prec emax (SFsub prec emax (vx pa) (vx pc)) (SFsub prec emax (vy pb) (vy pc))) in *.
  set (r := SFmul prec emax (SFsub prec emax (vy pa) (vy pc)) (SFsub prec emax (vx pb) (vx pc))) in *.
  set (L := (value (vx pa) - value (vx pc)) * (value (vy pb) - value (vy pc))) in *.
  set (R := (value (vy pa) - value (vy pc)) * (value (vx pb) - value (vx pc))) in *.
  assert (TE : turn (place pa) (place pb) (place pc) = L - R) by (unfold turn, place, px, py, L, R; cbn [vx vy]; ring). rewrite TE. clear TE.
  change (2 * 400 + 5)%Z with 805%Z in *. change (2 * 480)%Z with 960%Z in *.
  assert (BD : below 807 (SFsub prec emax l r)) by (apply (sub_below 805); auto; lia).
  destruct (sub_err l r DL DR (below_finite _ _ BD)) as [DD [d4 [H4 E4]]].
  set (dt := SFsub prec emax l r) in *. pose proof (near_one d4 H4) as N4. pose proof u_small as U.
  assert (P3 : 0 < (1 - u) ^ 3) by (apply pow_lt; lra).
  destruct (sign_factor _ _ f ltac:(lra) EL) as [SL1 [SL2 [SL3 [SL4 SL5]]]]. destruct (sign_factor _ _ g ltac:(lra) ER) as [SR1 [SR2 [SR3 [SR4 SR5]]]].
  assert (DZ : double (S754_zero false)) by (split; [exact I|reflexivity]).
  change (gtb FOps l (S754_zero false)) with (SFltb (S754_zero false) l). change (ltb FOps l (S754_zero false)) with (SFltb l (S754_zero false)).
  destruct (SFltb (S754_zero false) l) eqn:C1.
  - apply (ltb_value _ _ DZ DL) in C1. change (value (S754_zero false)) with 0 in C1. specialize (SL1 C1).
    destruct (leb FOps r (S754_zero false)) eqn:C2.
    + apply (leb_value _ _ DR DZ) in C2. change (value (S754_zero false)) with 0 in C2. specialize (SR4 C2).
      intros H. injection H as <-. split; [exact DD|]. apply same_sign_cases. left. rewrite E4. split; [apply Rmult_lt_0_compat|]; lra.
    + assert (C2' : 0 < value r). { destruct (Rlt_le_dec 0 (value r)); auto. apply (leb_value _ _ DR DZ) in r0. congruence. }
      assert (BS : below 807 (SFadd prec emax l r)) by (apply (add_below 805); auto; lia).
      destruct (add_err l r DL DR (below_finite _ _ BS)) as [DS [d5 [H5 E5]]].
      destruct (errbound_ok B (SFadd prec emax l r) (value l) (value r) EA DS ltac:(apply below_mono with 807%Z; auto; lia) C1 C2') as [DE [PE [d5' [d6 [H5' [H6 E6]]]]]].
      { destruct LL as [Z|Z]; [lra|]. rewrite Rabs_right in Z by lra. exact Z. }
      { exists d5; auto. }
      cbn [mul FOps] in DE, PE, E6. change f64_prec with 53%Z in *. change f64_emax with 1024%Z in *. set (eb := SFmul prec emax (ccwerrboundA FOps B) (SFadd prec emax l r)) in *.
      destruct (geb FOps dt eb || geb FOps (SFopp dt) eb) eqn:C3; [|discriminate]. intros H. injection H as <-. split; [exact DD|]. apply same_sign_cases.
      apply orb_true_iff in C3. destruct C3 as [C3|C3].
      * apply (geb_value _ _ DD DE) in C3. left. split; [lra|]. rewrite E6, E4 in C3.
        pose proof (filter_core (value l) (value r) L R f g d4 d5' d6 C1 C2' EL ER Ff Fg H4 H5' H6 C3). lra.
      * apply (geb_value _ _ (opp_double _ DD) DE) in C3. rewrite opp_value in C3. right. left. split; [lra|]. rewrite E6, E4 in C3.
        assert (C4 : boundA * ((value r + value l) * (1 + d5')) * (1 + d6) <= (value r - value l) * (1 + d4)) by (rewrite (Rplus_comm (value r)); lra).
        pose proof (filter_core (value r) (value l) R L g f d4 d5' d6 C2' C1 ER EL Fg Ff H4 H5' H6 C4). lra.
  - assert (C1' : value l <= 0). { destruct (Rle_lt_dec (value l) 0) as [Q|Q]; auto. apply (ltb_value _ _ DZ DL) in Q. congruence. }
    destruct (SFltb l (S754_zero false)) eqn:C0.
    + apply (ltb_value _ _ DL DZ) in C0. change (value (S754_zero false)) with 0 in C0. specialize (SL2 C0).
      destruct (geb FOps r (S754_zero false)) eqn:C2.
      * apply (geb_value _ _ DR DZ) in C2. change (value (S754_zero false)) with 0 in C2. specialize (SR5 C2).
        intros H. injection H as <-. split; [exact DD|]. apply same_sign_cases. right. left. rewrite E4. split; nra.
      * assert (C2' : value r < 0). { destruct (Rlt_le_dec (value r) 0) as [Q|Q]; auto. apply (geb_value _ _ DR DZ) in Q. congruence. }
        assert (DO : double (SFopp l)) by (apply opp_double; auto).
        assert (BO : below 805 (SFopp l)) by (destruct l; auto).
        assert (BS : below 807 (SFsub prec emax (SFopp l) r)) by (apply (sub_below 805); auto; lia).
        destruct (sub_err (SFopp l) r DO DR (below_finite _ _ BS)) as [DS [d5 [H5 E5]]]. rewrite opp_value in E5.
        destruct (errbound_ok B (SFsub prec emax (SFopp l) r) (- value l) (- value r) EA DS ltac:(apply below_mono with 807%Z; auto; lia) ltac:(lra) ltac:(lra)) as [DE [PE [d5' [d6 [H5' [H6 E6]]]]]].
        { destruct LL as [Z|Z]; [lra|]. rewrite Rabs_left in Z by lra. exact Z. }
        { exists d5; split; auto. }
        cbn [mul FOps] in DE, PE, E6. change f64_prec with 53%Z in *. change f64_emax with 1024%Z in *. set (eb := SFmul prec emax (ccwerrboundA FOps B) (SFsub prec emax (SFopp l) r)) in *.
        destruct (geb FOps dt eb || geb FOps (SFopp dt) eb) eqn:C3; [|discriminate]. intros H. injection H as <-. split; [exact DD|]. apply same_sign_cases.
        apply orb_true_iff in C3. destruct C3 as [C3|C3].
        -- apply (geb_value _ _ DD DE) in C3. left. split; [lra|]. rewrite E6, E4 in C3.
           assert (C4 : boundA * ((- value r + - value l) * (1 + d5')) * (1 + d6) <= (- value r - - value l) * (1 + d4)) by (rewrite (Rplus_comm (- value r)); lra).
           pose proof (filter_core (- value r) (- value l) (- R) (- L) g f d4 d5' d6 ltac:(lra) ltac:(lra) ltac:(rewrite ER; ring) ltac:(rewrite EL; ring) Fg Ff H4 H5' H6 C4). lra.
        -- apply (geb_value _ _ (opp_double _ DD) DE) in C3. rewrite opp_value in C3. right. left. split; [lra|]. rewrite E6, E4 in C3.
           assert (C4 : boundA * ((- value l + - value r) * (1 + d5')) * (1 + d6) <= (- value l - - value r) * (1 + d4)) by lra.
           pose proof (filter_core (- value l) (- value r) (- L) (- R) f g d4 d5' d6 ltac:(lra) ltac:(lra) ltac:(rewrite EL; ring) ltac:(rewrite ER; ring) Ff Fg H4 H5' H6 C4). lra.
    + assert (Z : value l = 0). { destruct (Rle_lt_or_eq_dec _ _ C1') as [Q|Q]; auto. apply (ltb_value _ _ DL DZ) in Q. congruence. }
      intros H. injection H as <-. split; [exact DD|]. specialize (SL3 Z). rewrite Z in E4. apply same_sign_cases.
      destruct (Rtotal_order (value r) 0) as [Q|[Q|Q]].
      * left. specialize (SR2 Q). split; [rewrite E4; apply Rmult_lt_0_compat; lra|lra].
      * right. right. specialize (SR3 Q). split; [rewrite E4, Q; ring|lra].
      * right. left. specialize (SR1 Q). split; [rewrite E4; nra|lra].
Qed.

(** ** when the adaptive stage is needed *)
Lemma pow3_near : 1 - 3 * u <= (1 - u) ^ 3 /\ (1 + u) ^ 3 <= 1 + 301 / 100 * u.
Proof. rewrite u_num. lra. Qed.
Lemma prod_near : forall l L f, 0 < l -> l = L * f -> (1 - u) ^ 3 <= f <= (1 + u) ^ 3 -> 0 < L /\ Rabs (l - L) <= 301 / 100 * u * L.
Proof.
  intros l L f Pl El Ff. destruct pow3_near as [F3 G3]. pose proof u_small as U.
  assert (PL : 0 < L) by (apply (proj1 (sign_factor l L f ltac:(lra) El)); auto). split; auto. apply Rabs_le. rewrite El. split; nra.
Qed.
Lemma add_sum_near : forall l r L R f g d5, 0 < l -> 0 < r -> l = L * f -> r = R * g -> (1 - u) ^ 3 <= f <= (1 + u) ^ 3 -> (1 - u) ^ 3 <= g <= (1 + u) ^ 3 -> Rabs d5 <= u ->
  Rabs ((l + r) * (1 + d5) - (Rabs L + Rabs R)) <= 8 * u * (Rabs L + Rabs R).
Proof.
  intros l r L R f g d5 Pl Pr El Er Ff Fg H5. pose proof u_small as U.
  destruct (prod_near l L f Pl El Ff) as [PL BL]. destruct (prod_near r R g Pr Er Fg) as [PR BR]. rewrite (Rabs_right L), (Rabs_right R) by lra.
  assert (S2 : l + r <= (1 + 301 / 100 * u) * (L + R)) by (apply Rabs_le_inv in BL; apply Rabs_le_inv in BR; lra).
  assert (UL : 0 < u * (L + R)) by (apply Rmult_lt_0_compat; lra).
  replace ((l + r) * (1 + d5) - (L + R)) with ((l - L) + (r - R) + (l + r) * d5) by ring. eapply Rle_trans; [apply Rabs_triang|]. eapply Rle_trans; [apply Rplus_le_compat_r, Rabs_triang|].
  assert (S6 : Rabs ((l + r) * d5) <= 2 * (u * (L + R))).
  { rewrite Rabs_mult, (Rabs_right (l + r)) by lra. apply Rle_trans with ((1 + 301 / 100 * u) * (L + R) * u); [apply Rmult_le_compat; auto; [lra|apply Rabs_pos]|].
    replace ((1 + 301 / 100 * u) * (L + R) * u) with (u * (L + R) * (1 + 301 / 100 * u)) by ring. rewrite (Rmult_comm 2). apply Rmult_le_compat_l; lra. }
  lra.
Qed.
Lemma band_core : forall l r L R f g d4 d5 d6, 0 < l -> 0 < r -> l = L * f -> r = R * g -> (1 - u) ^ 3 <= f <= (1 + u) ^ 3 -> (1 - u) ^ 3 <= g <= (1 + u) ^ 3 ->
  Rabs d4 <= u -> Rabs d5 <= u -> Rabs d6 <= u -> Rabs ((l - r) * (1 + d4)) <= boundA * ((l + r) * (1 + d5)) * (1 + d6) ->
  Rabs (L - R) <= 8 * u * (Rabs L + Rabs R).
Proof.
  intros l r L R f g d4 d5 d6 Pl Pr El Er Ff Fg H4 H5 H6 H.
  apply near_one in H4. apply near_one in H5. apply near_one in H6. pose proof u_small as U.
  destruct (prod_near l L f Pl El Ff) as [PL BL]. destruct (prod_near r R g Pr Er Fg) as [PR BR]. rewrite (Rabs_right L), (Rabs_right R) by lra.
  assert (PA : 0 < boundA <= 302 / 100 * u) by (unfold boundA; split; nra).
  assert (D56 : (1 + d5) * (1 + d6) <= (1 + u) * (1 + u)) by (apply Rmult_le_compat; lra).
  assert (S1 : Rabs (l - r) * (1 - u) <= boundA * (l + r) * ((1 + u) * (1 + u))).
  { apply Rle_trans with (Rabs ((l - r) * (1 + d4))); [rewrite Rabs_mult; apply Rmult_le_compat_l; [apply Rabs_pos|rewrite Rabs_right; lra]|].
    eapply Rle_trans; [exact H|]. replace (boundA * ((l + r) * (1 + d5)) * (1 + d6)) with (boundA * (l + r) * ((1 + d5) * (1 + d6))) by ring.
    apply Rmult_le_compat_l; [|exact D56]. apply Rmult_le_pos; lra. }
  assert (S2 : l + r <= (1 + 301 / 100 * u) * (L + R)) by (apply Rabs_le_inv in BL; apply Rabs_le_inv in BR; lra).
  assert (S3 : boundA * (l + r) * ((1 + u) * (1 + u)) <= 302 / 100 * u * ((1 + 301 / 100 * u) * (L + R)) * ((1 + u) * (1 + u))).
  { apply Rmult_le_compat_r; [nra|]. apply Rmult_le_compat; lra. }
  assert (UL : 0 < u * (L + R)) by (apply Rmult_lt_0_compat; lra).
  assert (S4 : 302 / 100 * u * ((1 + 301 / 100 * u) * (L + R)) * ((1 + u) * (1 + u)) <= 4 * (u * (L + R)) * (1 - u)).
  { replace (302 / 100 * u * ((1 + 301 / 100 * u) * (L + R)) * ((1 + u) * (1 + u))) with (u * (L + R) * (302 / 100 * (1 + 301 / 100 * u) * ((1 + u) * (1 + u)))) by ring.
    replace (4 * (u * (L + R)) * (1 - u)) with (u * (L + R) * (4 * (1 - u))) by ring. apply Rmult_le_compat_l; [lra|]. rewrite u_num. lra. }
  assert (S5 : Rabs (l - r) <= 4 * (u * (L + R))) by (apply Rmult_le_reg_r with (1 - u); lra).
  replace (L - R) with (- (l - L) + (l - r) + (r - R)) by ring. eapply Rle_trans; [apply Rabs_triang|]. eapply Rle_trans; [apply Rplus_le_compat_r, Rabs_triang|]. rewrite Rabs_Ropp. lra.
Qed.
Lemma ccw_adaptive : forall fuel B (pa pb pc : vec FOps) s, exactinit FOps fuel fhalf = Some B -> in_range 400 480 pa -> in_range 400 480 pb -> in_range 400 480 pc ->
  counterclockwise FOps B false pa pb pc = Adaptive s ->
  let L := (value (vx pa) - value (vx pc)) * (value (vy pb) - value (vy pc)) in let R := (value (vy pa) - value (vy pc)) * (value (vx pb) - value (vx pc)) in
  Rabs (turn (place pa) (place pb) (place pc)) <= 8 * u * (Rabs L + Rabs R) /\ double s /\ Rabs (value s - (Rabs L + Rabs R)) <= 8 * u * (Rabs L + Rabs R).
Proof.
  intros fuel B pa pb pc s EB [[Dax Day] [[Bax Bay] [Max May]]] [[Dbx Dby] [[Bbx Bby] [Mbx Mby]]] [[Dcx Dcy] [[Bcx Bcy] [Mcx Mcy]]].
  destruct (bounds_value _ _ EB) as [_ [_ [EA _]]].
  destruct (prod_ok 400 480 (vx pa) (vx pc) (vy pb) (vy pc)) as [DL [BL [f [Ff [EL LL]]]]]; auto; try lia.
  destruct (prod_ok 400 480 (vy pa) (vy pc) (vx pb) (vx pc)) as [DR [BR [g [Fg [ER LR]]]]]; auto; try lia.
  unfold counterclockwise. cbv zeta beta. cbn [sub mul add opp zero FOps]. change f64_prec with 53%Z. change f64_emax with 1024%Z.
  set (l := SFmul prec emax (SFsub prec emax (vx pa) (vx pc)) (SFsub prec emax (vy pb) (vy pc))) in *.
  set (r := SFmul prec emax (SFsub prec emax (vy pa) (vy pc)) (SFsub prec emax (vx pb) (vx pc))) in *.
  set (L := (value (vx pa) - value (vx pc)) * (value (vy pb) - value (vy pc))) in *.
  set (R := (value (vy pa) - value (vy pc)) * (value (vx pb) - value (vx pc))) in *.
  assert (TE : turn (place pa) (place pb) (place pc) = L - R) by (unfold turn, place, px, py, L, R; cbn [vx vy]; ring). rewrite TE. clear TE. clearbody L R.
  change (2 * 400 + 5)%Z with 805%Z in *. change (2 * 480)%Z with 960%Z in *.
  assert (BD : below 807 (SFsub prec emax l r)) by (apply (sub_below 805); auto; lia).
  destruct (sub_err l r DL DR (below_finite _ _ BD)) as [DD [d4 [H4 E4]]].
  set (dt := SFsub prec emax l r) in *.
  assert (DZ : double (S754_zero false)) by (split; [exact I|reflexivity]).
  assert (OUT : forall eb, double eb -> geb FOps dt eb || geb FOps (SFopp dt) eb = false -> Rabs (value dt) <= value eb).
  { intros eb DE C. apply orb_false_iff in C. destruct C as [C C']. apply Rabs_le. split.
    - destruct (Rle_lt_dec (value eb) (- value dt)) as [Q|Q]; [|lra]. exfalso. rewrite <- opp_value in Q. apply (geb_value _ _ (opp_double _ DD) DE) in Q. congruence.
    - destruct (Rle_lt_dec (value eb) (value dt)) as [Q|Q]; [|lra]. exfalso. apply (geb_value _ _ DD DE) in Q. congruence. }
  change (gtb FOps l (S754_zero false)) with (SFltb (S754_zero false) l). change (ltb FOps l (S754_zero false)) with (SFltb l (S754_zero false)).
  destruct (SFltb (S754_zero false) l) eqn:C1.
  - apply (ltb_value _ _ DZ DL) in C1. change (value (S754_zero false)) with 0 in C1.
    destruct (leb FOps r (S754_zero false)) eqn:C2; [discriminate|].
    assert (C2' : 0 < value r). { destruct (Rlt_le_dec 0 (value r)); auto. apply (leb_value _ _ DR DZ) in r0. congruence. }
    assert (BS : below 807 (SFadd prec emax l r)) by (apply (add_below 805); auto; lia).
    destruct (add_err l r DL DR (below_finite _ _ BS)) as [DS [d5 [H5 E5]]].
    destruct (errbound_ok B (SFadd prec emax l r) (value l) (value r) EA DS ltac:(apply below_mono with 807%Z; auto; lia) C1 C2') as [DE [PE [d5' [d6 [H5' [H6 E6]]]]]].
    { destruct LL as [Z|Z]; [lra|]. rewrite Rabs_right in Z by lra. exact Z. }
    { exists d5; auto. }
    cbn [mul FOps] in DE, PE, E6. change f64_prec with 53%Z in *. change f64_emax with 1024%Z in *. set (eb := SFmul prec emax (ccwerrboundA FOps B) (SFadd prec emax l r)) in *.
    destruct (geb FOps dt eb || geb FOps (SFopp dt) eb) eqn:C3; [discriminate|]. intros H. injection H as <-.
    pose proof (OUT eb DE C3) as C4. rewrite E6, E4 in C4.
    pose proof (band_core (value l) (value r) L R f g d4 d5' d6 C1 C2' EL ER Ff Fg H4 H5' H6 C4) as X1. split; [exact X1|]. split; [exact DS|]. rewrite E5.
    exact (add_sum_near (value l) (value r) L R f g d5 C1 C2' EL ER Ff Fg H5).
  - destruct (SFltb l (S754_zero false)) eqn:C0; [|discriminate].
    apply (ltb_value _ _ DL DZ) in C0. change (value (S754_zero false)) with 0 in C0.
    destruct (geb FOps r (S754_zero false)) eqn:C2; [discriminate|].
    assert (C2' : value r < 0). { destruct (Rlt_le_dec (value r) 0) as [Q|Q]; auto. apply (geb_value _ _ DR DZ) in Q. congruence. }
    assert (DO : double (SFopp l)) by (apply opp_double; auto).
    assert (BO : below 805 (SFopp l)) by (destruct l; auto).
    assert (BS : below 807 (SFsub prec emax (SFopp l) r)) by (apply (sub_below 805); auto; lia).
    destruct (sub_err (SFopp l) r DO DR (below_finite _ _ BS)) as [DS [d5 [H5 E5]]]. rewrite opp_value in E5.
    destruct (errbound_ok B (SFsub prec emax (SFopp l) r) (- value l) (- value r) EA DS ltac:(apply below_mono with 807%Z; auto; lia) ltac:(lra) ltac:(lra)) as [DE [PE [d5' [d6 [H5' [H6 E6]]]]]].
    { destruct LL as [Z|Z]; [lra|]. rewrite Rabs_left in Z by lra. exact Z. }
    { exists d5; split; auto. }
    cbn [mul FOps] in DE, PE, E6. change f64_prec with 53%Z in *. change f64_emax with 1024%Z in *. set (eb := SFmul prec emax (ccwerrboundA FOps B) (SFsub prec emax (SFopp l) r)) in *.
    destruct (geb FOps dt eb || geb FOps (SFopp dt) eb) eqn:C3; [discriminate|]. intros H. injection H as <-.
    pose proof (OUT eb DE C3) as C4. rewrite E6, E4 in C4.
    assert (C5 : Rabs ((- value l - - value r) * (1 + d4)) <= boundA * ((- value l + - value r) * (1 + d5')) * (1 + d6)).
    { replace ((- value l - - value r) * (1 + d4)) with (- ((value l - value r) * (1 + d4))) by ring. rewrite Rabs_Ropp. exact C4. }
    assert (EL' : - value l = - L * f) by (rewrite EL; ring). assert (ER' : - value r = - R * g) by (rewrite ER; ring).
    pose proof (band_core (- value l) (- value r) (- L) (- R) f g d4 d5' d6 ltac:(lra) ltac:(lra) EL' ER' Ff Fg H4 H5' H6 C5) as X1.
    pose proof (add_sum_near (- value l) (- value r) (- L) (- R) f g d5 ltac:(lra) ltac:(lra) EL' ER' Ff Fg H5) as Y. rewrite !Rabs_Ropp in X1, Y.
    split; [replace (L - R) with (- (- L - - R)) by ring; rewrite Rabs_Ropp; exact X1|]. split; [exact DS|]. rewrite E5. exact Y.
Qed.
