(** The later stages of the mesh generator's orientation test in binary64: the second stage, the exit for exact differences and the third stage. *)
From Coq Require Import List Arith ZArith NArith Bool Lia Reals Lra Psatz.
From Coq Require Import Floats.SpecFloat.
From Flocq Require Import Core BinarySingleNaN Relative Plus_error Sterbenz.
From Verif Require Import Base GeometryModel GeometrySpec FloatSpec Float_proofs FloatBound_proofs RoundSpec Round_proofs RoundUse_proofs PredicateModel PredicateSpec Predicate_proofs ExpansionModel ExpansionSpec Expansion_proofs ExpansionR_proofs.
Import ListNotations.
Local Open Scope R_scope.
Local Notation prec := 53%Z.
Local Notation emax := 1024%Z.
#[local] Existing Instance Round_proofs.Hprec.
#[local] Existing Instance Round_proofs.Hmax.
Local Notation ch := (fun n => negb (Z.even n)).
Local Notation rn := (round radix2 (FLT_exp (-1074) 53) (Znearest ch)).
Local Notation fmt := (generic_format radix2 (FLT_exp (-1074) 53)).

(** *** errors relative to the rounded result *)
Lemma rn_plus : forall x y, fmt x -> fmt y -> exists e, Rabs e <= u /\ x + y = rn (x + y) * (1 + e).
Proof.
  intros x y FX FY. destruct (FLT_plus_error_N_round_ex radix2 (-1074) 53 ch x y FX FY) as [e [He E]]. exists e. split; [|exact E].
  eapply Rle_trans; [exact He|]. unfold u_ro. rewrite <- u_half. apply Rle_refl.
Qed.
Lemma add_back : forall x y, double x -> double y -> finite (SFadd prec emax x y) -> double (SFadd prec emax x y) /\ exists e, Rabs e <= u /\ value x + value y = value (SFadd prec emax x y) * (1 + e).
Proof. intros x y DX DY F. destruct (add_rn x y DX DY F) as [D V]. split; [exact D|]. rewrite V. apply rn_plus; apply value_fmt; auto. Qed.
Lemma part_small : forall x X y, (exists e, Rabs e <= u /\ x = X * (1 + e)) -> X + y = x -> Rabs y <= u * Rabs X.
Proof. intros x X y [e [He E]] H. replace y with (e * X) by lra. rewrite Rabs_mult. apply Rmult_le_compat_r; [apply Rabs_pos|exact He]. Qed.
Lemma sum_parts : forall a b, double a -> double b -> finite (snd (two_sum FOps a b)) ->
  double (fst (two_sum FOps a b)) /\ double (snd (two_sum FOps a b)) /\ value (fst (two_sum FOps a b)) + value (snd (two_sum FOps a b)) = value a + value b /\
  Rabs (value (snd (two_sum FOps a b))) <= u * Rabs (value (fst (two_sum FOps a b))).
Proof.
  intros a b DA DB F. destruct (two_sum_exact a b DA DB F) as [D1 [D2 [V S]]]. split; auto. split; auto. split; auto.
  eapply part_small; [|exact S]. rewrite V. apply rn_plus; apply value_fmt; auto.
Qed.
Lemma diff_parts : forall a b, double a -> double b -> finite (snd (two_diff FOps a b)) ->
  double (fst (two_diff FOps a b)) /\ double (snd (two_diff FOps a b)) /\ value (fst (two_diff FOps a b)) + value (snd (two_diff FOps a b)) = value a - value b /\
  Rabs (value (snd (two_diff FOps a b))) <= u * Rabs (value (fst (two_diff FOps a b))).
Proof.
  intros a b DA DB F. destruct (two_diff_exact a b DA DB F) as [D1 [D2 [V S]]]. split; auto. split; auto. split; auto.
  eapply part_small; [|exact S]. rewrite V. unfold Rminus. apply rn_plus; [apply value_fmt; auto|apply generic_format_opp, value_fmt; auto].
Qed.
Lemma sub_back : forall x y, double x -> double y -> finite (SFsub prec emax x y) -> double (SFsub prec emax x y) /\ Rabs (value x - value y - value (SFsub prec emax x y)) <= u * Rabs (value (SFsub prec emax x y)).
Proof.
  intros x y DX DY F. destruct (sub_rn x y DX DY F) as [D V]. split; [exact D|]. apply (part_small (value x - value y)); [|ring]. rewrite V. unfold Rminus.
  apply rn_plus; [apply value_fmt; auto|apply generic_format_opp, value_fmt; auto].
Qed.
Lemma mul_back : forall p q, p * q = 0 \/ powerRZ 2 (-969) <= Rabs (p * q) -> forall y, rn (p * q) + y = p * q -> Rabs y <= u * Rabs (rn (p * q)).
Proof.
  intros p q [Z|N] y H.
  - rewrite Z in *. rewrite rn_0 in *. replace y with 0 by lra. rewrite Rabs_R0. lra.
  - replace y with (- (rn (p * q) - p * q)) by lra. rewrite Rabs_Ropp. rewrite <- u_half. apply (relative_error_N_FLT_round radix2 (-1074) 53 eq_refl ch).
    eapply Rle_trans; [|exact N]. rewrite bpow_powerRZ. change (IZR radix2) with 2. change (-1074 + 53 - 1)%Z with (-1022)%Z. rewrite !powerRZ_Rpower by lra. apply Rle_Rpower; [lra|apply IZR_le; lia].
Qed.

(** *** the inequality *)
Lemma tri2 : forall a b c, a = b + c -> Rabs a <= Rabs b + Rabs c. Proof. intros. subst. apply Rabs_triang. Qed.
Lemma tri3 : forall a b c d, a = b + c + d -> Rabs a <= Rabs b + Rabs c + Rabs d.
Proof. intros a b c d ->. pose proof (Rabs_triang (b + c) d). pose proof (Rabs_triang b c). lra. Qed.
Lemma tails : forall A t B s, Rabs t <= u * Rabs A -> Rabs s <= u * Rabs B -> Rabs ((A + t) * (B + s) - A * B) <= (2 * u + u * u) * Rabs (A * B).
Proof.
  intros A t B s HT HS. replace ((A + t) * (B + s) - A * B) with (A * s + t * B + t * s) by ring.
  pose proof (tri3 _ (A * s) (t * B) (t * s) eq_refl) as X. rewrite !Rabs_mult in *. pose proof (Rabs_pos A). pose proof (Rabs_pos B). pose proof (Rabs_pos t). pose proof (Rabs_pos s). pose proof u_pos.
  assert (Rabs A * Rabs s <= Rabs A * (u * Rabs B)) by (apply Rmult_le_compat_l; auto). assert (Rabs t * Rabs B <= (u * Rabs A) * Rabs B) by (apply Rmult_le_compat_r; auto).
  assert (Rabs t * Rabs s <= (u * Rabs A) * (u * Rabs B)) by (apply Rmult_le_compat; auto).
  replace ((2 * u + u * u) * (Rabs A * Rabs B)) with (Rabs A * (u * Rabs B) + u * Rabs A * Rabs B + u * Rabs A * (u * Rabs B)) by ring. lra.
Qed.
Lemma components_small : forall dl lt dr rt i x0 j z k x1, Rabs lt <= u * Rabs dl -> Rabs rt <= u * Rabs dr ->
  i + x0 = lt - rt -> Rabs x0 <= u * Rabs i -> j + z = dl + i -> Rabs z <= u * Rabs j -> k + x1 = z - dr -> Rabs x1 <= u * Rabs k ->
  Rabs x0 + Rabs x1 <= u * (1 + 6 * u) * (Rabs dl + Rabs dr).
Proof.
  intros dl lt dr rt i x0 j z k x1 H1 H2 H3 H4 H5 H6 H7 H8.
  pose proof (tri3 i lt (- rt) (- x0) ltac:(lra)) as T1. pose proof (tri3 j dl i (- z) ltac:(lra)) as T2. pose proof (tri3 k z (- dr) (- x1) ltac:(lra)) as T3. rewrite !Rabs_Ropp in *.
  pose proof (Rabs_pos dl). pose proof (Rabs_pos dr). rewrite u_num in *. lra.
Qed.
Lemma stage_core : forall A t B s Y v X w dl lt dr rt i x0 j z k x1 x2 x3 s1 e1 s2 e2 det e3,
  Rabs t <= u * Rabs A -> Rabs s <= u * Rabs B -> Rabs v <= u * Rabs Y -> Rabs w <= u * Rabs X ->
  dl + lt = A * B -> Rabs lt <= u * Rabs dl -> dr + rt = Y * X -> Rabs rt <= u * Rabs dr ->
  i + x0 = lt - rt -> Rabs x0 <= u * Rabs i -> j + z = dl + i -> Rabs z <= u * Rabs j -> k + x1 = z - dr -> Rabs x1 <= u * Rabs k -> x3 + x2 = j + k -> Rabs x2 <= u * Rabs x3 ->
  Rabs e1 <= u -> x0 + x1 = s1 * (1 + e1) -> Rabs e2 <= u -> s1 + x2 = s2 * (1 + e2) -> Rabs e3 <= u -> s2 + x3 = det * (1 + e3) ->
  0 < Rabs dl + Rabs dr -> (2 * u + 12 * (u * u)) * ((1 - u) * (1 - u)) * (Rabs dl + Rabs dr) <= Rabs det ->
  Rabs (det - ((A + t) * (B + s) - (Y + v) * (X + w))) < Rabs det.
Proof.
  intros A t B s Y v X w dl lt dr rt i x0 j z k x1 x2 x3 s1 e1 s2 e2 det e3 Ht Hs Hv Hw EL HL ER HR H1 H2 H3 H4 H5 H6 H7 H8 G1 F1 G2 F2 G3 F3 PS BD.
  pose proof (components_small dl lt dr rt i x0 j z k x1 HL HR H1 H2 H3 H4 H5 H6) as C01.
  assert (M : forall a e, Rabs e <= u -> Rabs (a * e) <= u * Rabs a) by (intros a e He; rewrite Rabs_mult, (Rmult_comm u); apply Rmult_le_compat_l; [apply Rabs_pos|exact He]).
  pose proof (M s1 e1 G1) as M1. pose proof (M s2 e2 G2) as M2. pose proof (M det e3 G3) as M3.
  pose proof (tri3 s1 x0 x1 (- (s1 * e1)) ltac:(lra)) as T1. pose proof (tri3 s2 s1 x2 (- (s2 * e2)) ltac:(lra)) as T2. pose proof (tri3 x3 det (det * e3) (- s2) ltac:(lra)) as T3.
  pose proof (tails A t B s Ht Hs) as TL. pose proof (tails Y v X w Hv Hw) as TR.
  pose proof (tri2 (A * B) dl lt ltac:(lra)) as PL. pose proof (tri2 (Y * X) dr rt ltac:(lra)) as PR.
  assert (D : det - ((A + t) * (B + s) - (Y + v) * (X + w)) = - (s1 * e1) - s2 * e2 - det * e3 - ((A + t) * (B + s) - A * B) + ((Y + v) * (X + w) - Y * X)) by lra.
  set (P1 := (A + t) * (B + s) - A * B) in *. set (P2 := (Y + v) * (X + w) - Y * X) in *.
  assert (Q : Rabs (det - ((A + t) * (B + s) - (Y + v) * (X + w))) <= Rabs (s1 * e1) + Rabs (s2 * e2) + Rabs (det * e3) + Rabs P1 + Rabs P2).
  { rewrite D. pose proof (Rabs_triang (- (s1 * e1) - s2 * e2 - det * e3 - P1) P2). pose proof (Rabs_triang (- (s1 * e1) - s2 * e2 - det * e3) (- P1)) as Y1.
    pose proof (tri3 (- (s1 * e1) - s2 * e2 - det * e3) (- (s1 * e1)) (- (s2 * e2)) (- (det * e3)) ltac:(lra)) as Y2. rewrite !Rabs_Ropp in *. unfold Rminus in *. lra. }
  eapply Rle_lt_trans; [exact Q|]. clear Q D. rewrite !Rabs_Ropp in *.
  set (a1 := Rabs (s1 * e1)) in *. set (a2 := Rabs (s2 * e2)) in *. set (a3 := Rabs (det * e3)) in *. set (p1 := Rabs P1) in *. set (p2 := Rabs P2) in *.
  set (ab := Rabs (A * B)) in *. set (yx := Rabs (Y * X)) in *. set (S1 := Rabs s1) in *. set (S2 := Rabs s2) in *. set (d := Rabs det) in *. set (X0 := Rabs x0) in *. set (X1 := Rabs x1) in *.
  set (X2 := Rabs x2) in *. set (X3 := Rabs x3) in *. set (l := Rabs dl) in *. set (r := Rabs dr) in *. set (l' := Rabs lt) in *. set (r' := Rabs rt) in *.
  clearbody a1 a2 a3 p1 p2 ab yx S1 S2 d X0 X1 X2 X3 l r l' r'. clear - C01 M1 M2 M3 T1 T2 T3 TL TR PL PR H8 HL HR PS BD. rewrite u_num in *. lra.
Qed.

(** *** no overflow *)
Local Ltac low n := apply below_mono with n; [|lia].
Lemma value_below : forall n x, finite x -> Rabs (value x) < powerRZ 2 n -> below n x.
Proof.
  intros n [s|s| |s m e] F H; cbn [finite below] in *; auto.
  assert (V : Rabs (value (S754_finite s m e)) = IZR (Z.pos m) * powerRZ 2 e).
  { unfold value. rewrite Rmult_assoc, Rabs_mult. rewrite (Rabs_right (IZR (Z.pos m) * powerRZ 2 e)) by (apply Rle_ge, Rmult_le_pos; [apply IZR_le; lia|apply powerRZ_le; lra]). destruct s; [rewrite Rabs_left by lra|rewrite Rabs_right by lra]; ring. }
  rewrite V in H. clear V. pose proof (pow2_pos e) as PE.
  assert (L : (e <= n)%Z).
  { destruct (Z_le_gt_dec e n) as [Q|Q]; [exact Q|exfalso]. assert (powerRZ 2 n <= powerRZ 2 e) by (rewrite !powerRZ_Rpower by lra; apply Rle_Rpower; [lra|apply IZR_le; lia]).
    assert (1 <= IZR (Z.pos m)) by (apply IZR_le; lia). nra. }
  split; [exact L|]. replace n with ((n - e) + e)%Z in H by lia. rewrite powerRZ_add in H by lra. apply Rmult_lt_reg_r in H; [|exact PE].
  replace (n - e)%Z with (Z.of_nat (Z.to_nat (n - e))) in H |- * by lia. rewrite <- pow_powerRZ, pow_IZR in H. apply lt_IZR in H. exact H.
Qed.
Lemma below_value : forall n x, below n x -> Rabs (value x) < powerRZ 2 n.
Proof.
  intros n [s|s| |s m e] H; cbn [below] in H; try tauto.
  - cbn [value]. rewrite Rabs_R0. apply pow2_pos.
  - destruct H as [L H].
    assert (V : Rabs (value (S754_finite s m e)) = IZR (Z.pos m) * powerRZ 2 e).
    { unfold value. rewrite Rmult_assoc, Rabs_mult. rewrite (Rabs_right (IZR (Z.pos m) * powerRZ 2 e)) by (apply Rle_ge, Rmult_le_pos; [apply IZR_le; lia|apply powerRZ_le; lra]). destruct s; [rewrite Rabs_left by lra|rewrite Rabs_right by lra]; ring. }
    rewrite V. replace n with ((n - e) + e)%Z by lia. rewrite powerRZ_add by lra. apply Rmult_lt_compat_r; [apply pow2_pos|].
    replace (n - e)%Z with (Z.of_nat (Z.to_nat (n - e))) in H |- * by lia. rewrite <- pow_powerRZ, pow_IZR. apply IZR_lt. exact H.
Qed.
Lemma sub_in : forall n k x y, below n x -> below n y -> (-900 <= n <= 890)%Z -> (n + 2 <= k)%Z -> below k (SFsub prec emax x y).
Proof. intros. apply below_mono with (n + 2)%Z; [apply sub_below; auto|lia]. Qed.
Lemma add_in : forall n k x y, below n x -> below n y -> (-900 <= n <= 890)%Z -> (n + 2 <= k)%Z -> below k (SFadd prec emax x y).
Proof. intros. apply below_mono with (n + 2)%Z; [apply add_below; auto|lia]. Qed.
Lemma mul_in : forall n k m x y, below n x -> below k y -> (-1000 <= n + k <= 900)%Z -> (n + k + 1 <= m)%Z -> below m (SFmul prec emax x y).
Proof. intros. apply below_mono with (n + k + 1)%Z; [apply mul_below; auto|lia]. Qed.
Lemma diff_in : forall n a b, below n a -> below n b -> (0 <= n <= 870)%Z -> below (n + 2) (fst (two_diff FOps a b)) /\ below (n + 10) (snd (two_diff FOps a b)).
Proof.
  intros n a b A B N. unfold two_diff, two_diff_tail. cbv zeta. cbn [fst snd sub add FOps]. change f64_prec with 53%Z. change f64_emax with 1024%Z.
  assert (X : below (n + 2) (SFsub prec emax a b)) by (apply (sub_in n); auto; lia). split; [exact X|]. set (x := SFsub prec emax a b) in *. clearbody x.
  assert (V : below (n + 4) (SFsub prec emax a x)) by (apply (sub_in (n + 2)); auto; try lia; low n; auto). set (bv := SFsub prec emax a x) in *. clearbody bv.
  assert (W : below (n + 6) (SFadd prec emax x bv)) by (apply (add_in (n + 4)); auto; try lia; low (n + 2)%Z; auto). set (av := SFadd prec emax x bv) in *. clearbody av.
  apply (add_in (n + 8)); try lia; [apply (sub_in (n + 6))|apply (sub_in (n + 4))]; auto; try lia; low n; auto.
Qed.
Lemma sum_in : forall n a b, below n a -> below n b -> (0 <= n <= 870)%Z -> below (n + 2) (fst (two_sum FOps a b)) /\ below (n + 10) (snd (two_sum FOps a b)).
Proof.
  intros n a b A B N. unfold two_sum. cbv zeta. cbn [fst snd sub add FOps]. change f64_prec with 53%Z. change f64_emax with 1024%Z.
  assert (X : below (n + 2) (SFadd prec emax a b)) by (apply (add_in n); auto; lia). split; [exact X|]. set (x := SFadd prec emax a b) in *. clearbody x.
  assert (V : below (n + 4) (SFsub prec emax x a)) by (apply (sub_in (n + 2)); auto; try lia; low n; auto). set (bv := SFsub prec emax x a) in *. clearbody bv.
  assert (W : below (n + 6) (SFsub prec emax x bv)) by (apply (sub_in (n + 4)); auto; try lia; low (n + 2)%Z; auto). set (av := SFsub prec emax x bv) in *. clearbody av.
  apply (add_in (n + 8)); try lia; [apply (sub_in (n + 6))|apply (sub_in (n + 4))]; auto; try lia; low n; auto.
Qed.
Lemma product_in : forall spl a b, below 28 spl -> below 402 a -> below 402 b -> below 805 (fst (two_product FOps spl a b)) /\ finite (snd (two_product FOps spl a b)).
Proof.
  intros spl a b S A B. unfold two_product, split. cbv zeta. cbn [fst snd sub add mul FOps]. change f64_prec with 53%Z. change f64_emax with 1024%Z.
  split; [apply (mul_in 402 402); auto; lia|].
  assert (H : forall q, below 402 q -> let c := SFmul prec emax spl q in let hi := SFsub prec emax c (SFsub prec emax c q) in below 437 hi /\ below 437 (SFsub prec emax q hi)).
  { intros q Q c hi. assert (C : below 431 c) by (apply (mul_in 28 402); auto; lia). clearbody c.
    assert (D : below 433 (SFsub prec emax c q)) by (apply (sub_in 431); auto; try lia; low 402%Z; auto).
    assert (E : below 435 hi) by (apply (sub_in 433); auto; try lia; low 431%Z; auto). split; [low 435%Z; auto|]. apply (sub_in 435); auto; try lia. low 402%Z; auto. }
  destruct (H a A) as [H1 H2]. destruct (H b B) as [H3 H4]. cbv zeta in *.
  set (ah := SFsub prec emax (SFmul prec emax spl a) _) in *. set (bh := SFsub prec emax (SFmul prec emax spl b) _) in *.
  set (al := SFsub prec emax a ah) in *. set (bl := SFsub prec emax b bh) in *. clearbody ah bh al bl.
  assert (M : forall p q, below 437 p -> below 437 q -> below 875 (SFmul prec emax p q)) by (intros; apply (mul_in 437 437); auto; lia).
  apply (below_finite 883). apply (sub_in 881); try lia; [low 875%Z; auto|]. apply (sub_in 879); try lia; [|low 875%Z; auto]. apply (sub_in 877); try lia; [|low 875%Z; auto].
  apply (sub_in 875); try lia; auto. apply (mul_in 402 402); auto; lia.
Qed.

(** *** the exit for exact differences *)
Lemma nearest : forall v f, fmt f -> Rabs (rn v - v) <= Rabs (f - v).
Proof. intros v f F. destruct (round_N_pt radix2 (FLT_exp (-1074) 53) ch v) as [_ N]. apply N. exact F. Qed.
Lemma gap : forall x y, fmt x -> fmt y -> 0 < x -> x < y -> u * x <= y - x.
Proof.
  intros x y FX FY PX L. pose proof (succ_le_lt radix2 (FLT_exp (-1074) 53) x y FX FY L) as H. rewrite succ_eq_pos in H by lra.
  pose proof (ulp_FLT_gt radix2 (-1074) 53 x) as G. rewrite Rabs_right in G by lra. rewrite bpow_powerRZ in G. change (IZR radix2) with 2 in G. change (powerRZ 2 (- 53)) with u in G. change (powerRZ 2 (- (53))) with u in G. lra.
Qed.
Lemma gap2 : forall x y, fmt x -> fmt y -> 0 < x -> 0 < y -> x = y \/ u * Rmin x y <= Rabs (x - y).
Proof.
  intros x y FX FY PX PY. destruct (Rtotal_order x y) as [H|[H|H]]; [right|left; exact H|right].
  - pose proof (gap x y FX FY PX H). rewrite Rmin_left by lra. rewrite Rabs_left by lra. lra.
  - pose proof (gap y x FY FX PY H). rewrite Rmin_right by lra. rewrite Rabs_right by lra. lra.
Qed.
Lemma zero_core : forall dl lt dr rt i x0 j z k x1 x2 x3 s1 s2, fmt dl -> fmt dr -> fmt x0 -> fmt j -> fmt k -> fmt x1 -> fmt x3 -> fmt s1 ->
  0 < dl -> 0 < dr -> Rabs (dl - dr) <= 8 * u * (dl + dr) -> Rabs lt <= u * Rabs dl -> Rabs rt <= u * Rabs dr ->
  i + x0 = lt - rt -> Rabs x0 <= u * Rabs i -> j = rn (dl + i) -> j + z = dl + i -> Rabs z <= u * Rabs j -> k = rn (z - dr) -> k + x1 = z - dr -> Rabs x1 <= u * Rabs k ->
  x3 = rn (j + k) -> x3 + x2 = j + k -> s1 = rn (x0 + x1) -> s2 = rn (s1 + x2) -> same_sign (s2 + x3) (x0 + x1 + x2 + x3).
Proof.
  intros dl lt dr rt i x0 j z k x1 x2 x3 s1 s2 Fl Fr F0 Fj Fk F1 F3 Fs PL PR CL HL HR H1 H2 J H3 H4 K H5 H6 X3 H7 S1 S2.
  assert (R : (48 / 100 * (dl + dr) <= j <= 52 / 100 * (dl + dr)) /\ (- (52 / 100) * (dl + dr) <= k <= - (48 / 100) * (dl + dr)) /\ Rabs x0 <= 2 * u * u * (dl + dr)).
  { clear J K X3 S1 S2. pose proof (tri3 i lt (- rt) (- x0) ltac:(lra)) as T1. rewrite !Rabs_Ropp in T1. rewrite (Rabs_right dl) in HL by lra. rewrite (Rabs_right dr) in HR by lra.
    pose proof (tri3 j dl i (- z) ltac:(lra)) as T2. rewrite Rabs_Ropp in T2. rewrite (Rabs_right dl) in T2 by lra. pose proof (tri3 k z (- dr) (- x1) ltac:(lra)) as T3. rewrite !Rabs_Ropp in T3. rewrite (Rabs_right dr) in T3 by lra.
    pose proof (Rle_abs (dl - dr)). pose proof (Rle_abs (- (dl - dr))) as A1. rewrite Rabs_Ropp in A1. pose proof (Rle_abs i). pose proof (Rle_abs (- i)) as A2. rewrite Rabs_Ropp in A2.
    pose proof (Rle_abs z). pose proof (Rle_abs (- z)) as A3. rewrite Rabs_Ropp in A3. pose proof (Rle_abs x1). pose proof (Rle_abs (- x1)) as A4. rewrite Rabs_Ropp in A4.
    rewrite u_num in *. split; [lra|]. split; lra. }
  destruct R as [RJ [RK R0]].
  assert (FX : fmt (j + k)).
  { replace (j + k) with (j - - k) by ring. apply sterbenz; [apply FLT_exp_valid; reflexivity|apply FLT_exp_monotone|exact Fj|apply generic_format_opp; exact Fk|lra]. }
  rewrite (rn_id _ FX) in X3. assert (Z2 : x2 = 0) by lra. subst x2. rewrite Rplus_0_r in S2. rewrite (rn_id _ Fs) in S2. subst s2.
  pose proof (nearest (z - dr) (- dr) (generic_format_opp _ _ _ Fr)) as N1. rewrite <- K in N1. replace (k - (z - dr)) with (- x1) in N1 by lra. replace (- dr - (z - dr)) with (- z) in N1 by ring. rewrite !Rabs_Ropp in N1.
  pose proof (nearest (dl + i) dr Fr) as N2. rewrite <- J in N2. replace (j - (dl + i)) with (- z) in N2 by lra. replace (dr - (dl + i)) with (- (x1 + x3)) in N2 by lra. rewrite !Rabs_Ropp in N2.
  pose proof (nearest (x0 + x1) (- x3) (generic_format_opp _ _ _ F3)) as N3. rewrite <- S1 in N3. replace (- x3 - (x0 + x1)) with (- (x0 + x1 + x3)) in N3 by ring. rewrite Rabs_Ropp in N3.
  destruct (rn_plus x0 x1 F0 F1) as [e [He E]]. rewrite <- S1 in E.
  assert (NZ : s1 + x3 = 0 -> x0 + x1 + x3 = 0).
  { intros Q. assert (E' : x0 + x1 + x3 = - (x3 * e)) by (replace s1 with (- x3) in E by lra; lra).
    assert (M : Rabs (x0 + x1 + x3) <= u * Rabs x3) by (rewrite E', Rabs_Ropp, Rabs_mult, Rmult_comm; apply Rmult_le_compat_r; [apply Rabs_pos|exact He]).
    pose proof (tri2 (x1 + x3) (x0 + x1 + x3) (- x0) ltac:(ring)) as T1. rewrite Rabs_Ropp in T1. pose proof (tri2 x3 (x1 + x3) (- x1) ltac:(ring)) as T2. rewrite Rabs_Ropp in T2.
    destruct (gap2 j (- k) Fj (generic_format_opp _ _ _ Fk) ltac:(lra) ltac:(lra)) as [G|G].
    - assert (x3 = 0) by lra. subst x3. rewrite H in M. rewrite Rabs_R0 in M. rewrite H. pose proof (Rabs_pos (x0 + x1 + 0)). destruct (Req_dec (x0 + x1 + 0) 0) as [W|W]; [exact W|]. apply Rabs_pos_lt in W. rewrite H in *. lra.
    - exfalso. replace (j - - k) with x3 in G by lra. assert (MM : 48 / 100 * (dl + dr) <= Rmin j (- k)) by (apply Rmin_glb; lra). pose proof u_small.
      assert (G' : u * (48 / 100 * (dl + dr)) <= Rabs x3) by (eapply Rle_trans; [|exact G]; apply Rmult_le_compat_l; lra).
      clear - G' R0 M T1 T2 N1 N2 PL PR. rewrite u_num in *. lra. }
  replace (x0 + x1 + 0 + x3) with (x0 + x1 + x3) by ring. set (T := x0 + x1 + x3) in *. set (a := s1 + x3) in *. replace (s1 - (x0 + x1)) with (a - T) in N3 by (unfold a, T; ring). clearbody a T.
  clear - N3 NZ. apply same_sign_cases. destruct (Rtotal_order T 0) as [H|[H|H]].
  - right. left. rewrite (Rabs_left T) in N3 by lra. apply Rabs_le_inv in N3. split; [|lra]. destruct (Req_dec a 0) as [W|W]; [apply NZ in W; lra|lra].
  - right. right. subst T. rewrite Rabs_R0 in N3. assert (a - 0 = 0) by (apply Rabs_le_inv in N3; lra). lra.
  - left. rewrite (Rabs_right T) in N3 by lra. apply Rabs_le_inv in N3. split; [|lra]. destruct (Req_dec a 0) as [W|W]; [apply NZ in W; lra|lra].
Qed.

(** *** the third stage *)
Lemma third_core : forall A t B s Y v X w dl lt dr rt i x0 j z k x1 x2 x3 s1 e1 s2 e2 det e3 eta q1 q2 q3 q4 m1 f1 m2 f2 n f3 d2 f4,
  Rabs t <= u * Rabs A -> Rabs s <= u * Rabs B -> Rabs v <= u * Rabs Y -> Rabs w <= u * Rabs X ->
  dl + lt = A * B -> Rabs lt <= u * Rabs dl -> dr + rt = Y * X -> Rabs rt <= u * Rabs dr -> Rabs (dl - dr) <= 8 * u * (Rabs dl + Rabs dr) ->
  i + x0 = lt - rt -> Rabs x0 <= u * Rabs i -> j + z = dl + i -> Rabs z <= u * Rabs j -> k + x1 = z - dr -> Rabs x1 <= u * Rabs k -> x3 + x2 = j + k -> Rabs x2 <= u * Rabs x3 ->
  Rabs e1 <= u -> x0 + x1 = s1 * (1 + e1) -> Rabs e2 <= u -> s1 + x2 = s2 * (1 + e2) -> Rabs e3 <= u -> s2 + x3 = det * (1 + e3) ->
  Rabs (q1 - A * s) <= u * Rabs (A * s) + eta -> Rabs (q2 - B * t) <= u * Rabs (B * t) + eta -> Rabs (q3 - Y * w) <= u * Rabs (Y * w) + eta -> Rabs (q4 - X * v) <= u * Rabs (X * v) + eta ->
  Rabs f1 <= u -> q1 + q2 = m1 * (1 + f1) -> Rabs f2 <= u -> q3 + q4 = m2 * (1 + f2) -> Rabs f3 <= u -> m1 - m2 = n * (1 + f3) -> Rabs f4 <= u -> det + n = d2 * (1 + f4) ->
  0 < Rabs dl + Rabs dr -> 0 <= eta <= u * u * u * (Rabs dl + Rabs dr) -> (17 / 2) * (u * u) * (Rabs dl + Rabs dr) + 2 * u * Rabs det <= Rabs d2 ->
  Rabs (d2 - ((A + t) * (B + s) - (Y + v) * (X + w))) < Rabs d2.
Proof.
  intros A t B s Y v X w dl lt dr rt i x0 j z k x1 x2 x3 s1 e1 s2 e2 det e3 eta q1 q2 q3 q4 m1 f1 m2 f2 n f3 d2 f4 Ht Hs Hv Hw EL HL ER HR CL H1 H2 H3 H4 H5 H6 H7 H8 G1 F1 G2 F2 G3 F3 Q1 Q2 Q3 Q4 I1 J1 I2 J2 I3 J3 I4 J4 PS ET BD.
  assert (M : forall a e, Rabs e <= u -> Rabs (a * e) <= u * Rabs a) by (intros a e He; rewrite Rabs_mult, (Rmult_comm u); apply Rmult_le_compat_l; [apply Rabs_pos|exact He]).
  pose proof (M s1 e1 G1) as M1. pose proof (M s2 e2 G2) as M2. pose proof (M det e3 G3) as M3. pose proof (M m1 f1 I1) as M4. pose proof (M m2 f2 I2) as M5. pose proof (M n f3 I3) as M6. pose proof (M d2 f4 I4) as M7.
  assert (W : forall a b c, Rabs b <= u * Rabs c -> Rabs (a * b) <= u * Rabs (a * c)).
  { intros a b c H. rewrite !Rabs_mult. replace (u * (Rabs a * Rabs c)) with (Rabs a * (u * Rabs c)) by ring. apply Rmult_le_compat_l; [apply Rabs_pos|exact H]. }
  pose proof (W A s B Hs) as W1. pose proof (W B t A Ht) as W2. rewrite (Rmult_comm B A) in W2. pose proof (W Y w X Hw) as W3. pose proof (W X v Y Hv) as W4. rewrite (Rmult_comm X Y) in W4.
  assert (TS : Rabs (t * s) <= u * u * Rabs (A * B)).
  { rewrite !Rabs_mult. replace (u * u * (Rabs A * Rabs B)) with (u * Rabs A * (u * Rabs B)) by ring. apply Rmult_le_compat; auto; apply Rabs_pos. }
  assert (VW : Rabs (v * w) <= u * u * Rabs (Y * X)).
  { rewrite !Rabs_mult. replace (u * u * (Rabs Y * Rabs X)) with (u * Rabs Y * (u * Rabs X)) by ring. apply Rmult_le_compat; auto; apply Rabs_pos. }
  pose proof (tri2 (A * B) dl lt ltac:(lra)) as PL. pose proof (tri2 (Y * X) dr rt ltac:(lra)) as PR.
  pose proof (tri3 i lt (- rt) (- x0) ltac:(lra)) as T1. pose proof (tri3 j dl i (- z) ltac:(lra)) as T2. pose proof (tri3 k z (- dr) (- x1) ltac:(lra)) as T3.
  pose proof (tri3 s1 x0 x1 (- (s1 * e1)) ltac:(lra)) as T4. pose proof (tri3 s2 s1 x2 (- (s2 * e2)) ltac:(lra)) as T5. pose proof (tri3 x3 det (det * e3) (- s2) ltac:(lra)) as T6.
  pose proof (tri2 q1 (q1 - A * s) (A * s) ltac:(ring)) as R1. pose proof (tri2 q2 (q2 - B * t) (B * t) ltac:(ring)) as R2. pose proof (tri2 q3 (q3 - Y * w) (Y * w) ltac:(ring)) as R3. pose proof (tri2 q4 (q4 - X * v) (X * v) ltac:(ring)) as R4.
  pose proof (tri3 m1 q1 q2 (- (m1 * f1)) ltac:(lra)) as T7. pose proof (tri3 m2 q3 q4 (- (m2 * f2)) ltac:(lra)) as T8. pose proof (tri3 n m1 (- m2) (- (n * f3)) ltac:(lra)) as T9.
  assert (DR : Rabs dr <= 51 / 100 * (Rabs dl + Rabs dr)).
  { pose proof (tri2 dr dl (- (dl - dr)) ltac:(ring)) as TT. rewrite Rabs_Ropp in TT. clear - TT CL PS. rewrite u_num in *. lra. }
  assert (D : d2 - ((A + t) * (B + s) - (Y + v) * (X + w)) =
    (- (s1 * e1) + - (s2 * e2) + - (det * e3)) + (- (m1 * f1) + m2 * f2 + - (n * f3)) + ((q1 - A * s) + (q2 - B * t) + - (q3 - Y * w)) + (- (q4 - X * v) + - (t * s) + v * w) + - (d2 * f4)) by lra.
  assert (Q : Rabs (d2 - ((A + t) * (B + s) - (Y + v) * (X + w))) <= (Rabs (s1 * e1) + Rabs (s2 * e2) + Rabs (det * e3)) + (Rabs (m1 * f1) + Rabs (m2 * f2) + Rabs (n * f3)) +
    (Rabs (q1 - A * s) + Rabs (q2 - B * t) + Rabs (q3 - Y * w)) + (Rabs (q4 - X * v) + Rabs (t * s) + Rabs (v * w)) + Rabs (d2 * f4)).
  { rewrite D. set (g1 := _ + _ + - (det * e3)). set (g2 := _ + _ + - (n * f3)). set (g3 := _ + _ + - (q3 - Y * w)). set (g4 := _ + _ + v * w).
    pose proof (tri3 g1 _ _ _ eq_refl) as Y1. pose proof (tri3 g2 _ _ _ eq_refl) as Y2. pose proof (tri3 g3 _ _ _ eq_refl) as Y3. pose proof (tri3 g4 _ _ _ eq_refl) as Y4.
    pose proof (tri2 (g1 + g2 + g3 + g4 + - (d2 * f4)) _ _ eq_refl) as Y5. pose proof (tri2 (g1 + g2 + g3 + g4) _ _ eq_refl) as Y6. pose proof (tri3 (g1 + g2 + g3) _ _ _ eq_refl) as Y7.
    rewrite !Rabs_Ropp in *. clear - Y1 Y2 Y3 Y4 Y5 Y6 Y7. lra. }
  eapply Rle_lt_trans; [exact Q|]. clear Q D M W. rewrite !Rabs_Ropp in *.
  clear - M1 M2 M3 M4 M5 M6 M7 W1 W2 W3 W4 TS VW PL PR T1 T2 T3 T4 T5 T6 R1 R2 R3 R4 T7 T8 T9 DR HL HR H2 H4 H6 H8 Q1 Q2 Q3 Q4 PS ET BD.
  assert (EST : Rabs (s1 * e1) + Rabs (s2 * e2) + Rabs (det * e3) <= 12 / 10 * u * Rabs det + 11 / 10 * (u * u) * (Rabs dl + Rabs dr)).
  { clear M4 M5 M6 M7 W1 W2 W3 W4 TS VW PL PR R1 R2 R3 R4 T7 T8 T9 Q1 Q2 Q3 Q4 ET BD. pose proof (Rabs_pos dl). pose proof (Rabs_pos dr). pose proof (Rabs_pos det). rewrite u_num in *. lra. }
  assert (COR : Rabs (m1 * f1) + Rabs (m2 * f2) + Rabs (n * f3) + (Rabs (q1 - A * s) + Rabs (q2 - B * t) + Rabs (q3 - Y * w)) + (Rabs (q4 - X * v) + Rabs (t * s) + Rabs (v * w)) <= 71 / 10 * (u * u) * (Rabs dl + Rabs dr)).
  { clear EST M1 M2 M3 M7 T1 T2 T3 T4 T5 T6 DR H2 H4 H6 H8 BD. pose proof (Rabs_pos dl). pose proof (Rabs_pos dr). rewrite u_num in *. lra. }
  clear - EST COR BD M7 PS. pose proof (Rabs_pos det). rewrite u_num in *. lra.
Qed.

(** *** the first stage hands over the sum of the two products *)
Lemma close_core : forall l r d4 d5 d6, 0 < l -> 0 < r -> Rabs d4 <= u -> Rabs d5 <= u -> Rabs d6 <= u -> Rabs ((l - r) * (1 + d4)) <= boundA * ((l + r) * (1 + d5)) * (1 + d6) -> Rabs (l - r) <= 8 * u * (l + r).
Proof.
  intros l r d4 d5 d6 PL PR H4 H5 H6 H. apply near_one in H4, H5, H6. pose proof u_small as U. rewrite Rabs_mult, (Rabs_right (1 + d4)) in H by lra.
  assert (X : boundA * ((l + r) * (1 + d5)) * (1 + d6) <= boundA * ((l + r) * (1 + u)) * (1 + u)).
  { assert (0 <= boundA) by (unfold boundA; nra). apply Rmult_le_compat; try lra; [apply Rmult_le_pos; [lra|apply Rmult_le_pos; lra]|]. apply Rmult_le_compat_l; [lra|]. apply Rmult_le_compat_l; lra. }
  assert (Y : Rabs (l - r) * (1 - u) <= Rabs (l - r) * (1 + d4)) by (apply Rmult_le_compat_l; [apply Rabs_pos|lra]).
  unfold boundA in X. clear - H X Y PL PR. unfold boundA in H. rewrite u_num in *. lra.
Qed.
Lemma adaptive_sum : forall fuel B (pa pb pc : vec FOps) s, exactinit FOps fuel fhalf = Some B -> in_range 400 440 pa -> in_range 400 440 pb -> in_range 400 440 pc ->
  counterclockwise FOps B false pa pb pc = Adaptive s ->
  let l := SFmul prec emax (SFsub prec emax (vx pa) (vx pc)) (SFsub prec emax (vy pb) (vy pc)) in let r := SFmul prec emax (SFsub prec emax (vy pa) (vy pc)) (SFsub prec emax (vx pb) (vx pc)) in
  double s /\ below 815 s /\ powerRZ 2 (- (880)) / 8 <= Rabs (value l) /\ ((0 < value l /\ 0 < value r) \/ (value l < 0 /\ value r < 0)) /\ Rabs (value l - value r) <= 8 * u * (Rabs (value l) + Rabs (value r)) /\
  exists d, Rabs d <= u /\ value s = (Rabs (value l) + Rabs (value r)) * (1 + d).
Proof.
  intros fuel B pa pb pc s EB0 [[Dax Day] [[Bax Bay] [Max May]]] [[Dbx Dby] [[Bbx Bby] [Mbx Mby]]] [[Dcx Dcy] [[Bcx Bcy] [Mcx Mcy]]].
  destruct (bounds_value _ _ EB0) as [_ [_ [EA _]]].
  destruct (prod_ok 400 440 (vx pa) (vx pc) (vy pb) (vy pc)) as [DL [BL [f [_ [_ LL]]]]]; auto; try lia.
  destruct (prod_ok 400 440 (vy pa) (vy pc) (vx pb) (vx pc)) as [DR [BR [g [_ [_ LR]]]]]; auto; try lia.
  unfold counterclockwise. cbv zeta beta. cbn [sub mul add opp zero FOps]. change f64_prec with 53%Z. change f64_emax with 1024%Z.
  set (l := SFmul prec emax (SFsub prec emax (vx pa) (vx pc)) (SFsub prec emax (vy pb) (vy pc))) in *.
  set (r := SFmul prec emax (SFsub prec emax (vy pa) (vy pc)) (SFsub prec emax (vx pb) (vx pc))) in *.
  change (2 * 400 + 5)%Z with 805%Z in *. change (2 * 440)%Z with 880%Z in *. clearbody l r.
  assert (BD : below 807 (SFsub prec emax l r)) by (apply (sub_below 805); auto; lia).
  destruct (sub_err l r DL DR (below_finite _ _ BD)) as [DD [d4 [H4 E4]]].
  set (dt := SFsub prec emax l r) in *.
  assert (OUT : forall eb, double eb -> geb FOps dt eb || geb FOps (SFopp dt) eb = false -> Rabs (value dt) <= value eb).
  { intros eb DE C. apply orb_false_iff in C. destruct C as [C C']. apply Rabs_le. split.
    - destruct (Rle_lt_dec (value eb) (- value dt)) as [Q|Q]; [|lra]. exfalso. rewrite <- opp_value in Q. apply (geb_value _ _ (opp_double _ DD) DE) in Q. congruence.
    - destruct (Rle_lt_dec (value eb) (value dt)) as [Q|Q]; [|lra]. exfalso. apply (geb_value _ _ DD DE) in Q. congruence. }
  assert (P96 : powerRZ 2 (- (960)) <= powerRZ 2 (- (880))) by (rewrite !powerRZ_Rpower by lra; apply Rle_Rpower; [lra|apply IZR_le; lia]).
  assert (DZ : double (S754_zero false)) by (split; [exact I|reflexivity]).
  change (gtb FOps l (S754_zero false)) with (SFltb (S754_zero false) l). change (ltb FOps l (S754_zero false)) with (SFltb l (S754_zero false)).
  destruct (SFltb (S754_zero false) l) eqn:C1.
  - apply (ltb_value _ _ DZ DL) in C1. change (value (S754_zero false)) with 0 in C1.
    destruct (leb FOps r (S754_zero false)) eqn:C2; [discriminate|].
    assert (C2' : 0 < value r). { destruct (Rlt_le_dec 0 (value r)) as [Q|Q]; auto. apply (leb_value _ _ DR DZ) in Q. congruence. }
    assert (BS : below 807 (SFadd prec emax l r)) by (apply (add_below 805); auto; lia).
    destruct (add_err l r DL DR (below_finite _ _ BS)) as [DS [d5 [H5 E5]]].
    rewrite (Rabs_right (value l)) in LL by lra.
    destruct (errbound_ok B (SFadd prec emax l r) (value l) (value r) EA DS ltac:(low 807%Z; exact BS) C1 C2') as [DE [PE [d5' [d6 [H5' [H6 E6]]]]]].
    { lra. }
    { exists d5; auto. }
    cbn [mul FOps] in DE, PE, E6. change f64_prec with 53%Z in *. change f64_emax with 1024%Z in *. set (eb := SFmul prec emax (ccwerrboundA FOps B) (SFadd prec emax l r)) in *.
    destruct (geb FOps dt eb || geb FOps (SFopp dt) eb) eqn:C3; [discriminate|]. intros H. injection H as <-. split; [exact DS|]. split; [low 807%Z; exact BS|].
    rewrite (Rabs_right (value l)), (Rabs_right (value r)) by lra. split; [lra|]. split; [left; lra|]. split; [|exists d5; auto].
    pose proof (OUT eb DE C3) as C4. rewrite E6, E4 in C4. apply (close_core _ _ d4 d5' d6); auto; lra.
  - destruct (SFltb l (S754_zero false)) eqn:C0; [|discriminate].
    apply (ltb_value _ _ DL DZ) in C0. change (value (S754_zero false)) with 0 in C0.
    destruct (geb FOps r (S754_zero false)) eqn:C2; [discriminate|].
    assert (C2' : value r < 0). { destruct (Rlt_le_dec (value r) 0) as [Q|Q]; auto. apply (geb_value _ _ DR DZ) in Q. congruence. }
    assert (DO : double (SFopp l)) by (apply opp_double; auto).
    assert (BO : below 805 (SFopp l)) by (destruct l; auto).
    assert (BS : below 807 (SFsub prec emax (SFopp l) r)) by (apply (sub_below 805); auto; lia).
    destruct (sub_err (SFopp l) r DO DR (below_finite _ _ BS)) as [DS [d5 [H5 E5]]]. rewrite opp_value in E5.
    rewrite (Rabs_left (value l)) in LL by lra.
    destruct (errbound_ok B (SFsub prec emax (SFopp l) r) (- value l) (- value r) EA DS ltac:(low 807%Z; exact BS) ltac:(lra) ltac:(lra)) as [DE [PE [d5' [d6 [H5' [H6 E6]]]]]].
    { lra. }
    { exists d5; auto. }
    cbn [mul FOps] in DE, PE, E6. change f64_prec with 53%Z in *. change f64_emax with 1024%Z in *. set (eb := SFmul prec emax (ccwerrboundA FOps B) (SFsub prec emax (SFopp l) r)) in *.
    destruct (geb FOps dt eb || geb FOps (SFopp dt) eb) eqn:C3; [discriminate|]. intros H. injection H as <-. split; [exact DS|]. split; [low 807%Z; exact BS|].
    rewrite (Rabs_left (value l)), (Rabs_left (value r)) by lra. split; [lra|]. split; [right; lra|]. split; [|exists d5; split; [exact H5|rewrite E5; ring]].
    pose proof (OUT eb DE C3) as C4. rewrite E6, E4 in C4. replace (value l - value r) with (- (- value l - - value r)) in C4 |- * by ring. rewrite <- Ropp_mult_distr_l in C4. rewrite Rabs_Ropp in *. apply (close_core _ _ d4 d5' d6); auto; lra.
Qed.
Definition boundB : R := 2 * u + 12 * (u * u).
Lemma boundB_value : value (S754_finite false 4503599627370499 (-104)) = boundB.
Proof.
  unfold boundB. rewrite u_num. unfold value. change (powerRZ 2 (-104)) with (/ 2 ^ 104). rewrite pow_IZR. change (2 ^ Z.of_nat 104)%Z with 20282409603651670423947251286016%Z. lra.
Qed.
Lemma errboundB_ok : forall s S, double s -> below 815 s -> powerRZ 2 (- (960)) / 8 <= S -> (exists d, Rabs d <= u /\ value s = S * (1 + d)) ->
  let e := SFmul prec emax (S754_finite false 4503599627370499 (-104)) s in double e /\ boundB * ((1 - u) * (1 - u)) * S <= value e.
Proof.
  intros s S Ds Bs Ll [d5 [H5 E5]] e. unfold e. set (k := S754_finite false 4503599627370499 (-104)).
  assert (DK : double k) by (split; [exact I|reflexivity]).
  assert (BK : below 1 k) by (split; [lia|reflexivity]).
  assert (BM : below 817 (SFmul prec emax k s)) by (apply (mul_below 1 815); auto; lia).
  pose proof (near_one d5 H5) as N5. pose proof u_small as U. pose proof (pow2_pos (- (960))) as PP.
  assert (BG : powerRZ 2 (-53) * 2 <= boundB) by (unfold boundB; fold u; nra).
  assert (BP : 0 < boundB) by (unfold boundB; nra).
  assert (SP : 0 < S) by lra.
  assert (N : powerRZ 2 (-1022) <= Rabs (value k * value s)).
  { unfold k. rewrite boundB_value, E5. rewrite Rabs_right.
    2: { apply Rle_ge. apply Rmult_le_pos; [lra|]. apply Rmult_le_pos; lra. }
    apply Rle_trans with (powerRZ 2 (-53) * 2 * (powerRZ 2 (- (960)) / 8 * / 2)).
    - replace (powerRZ 2 (-53) * 2 * (powerRZ 2 (- (960)) / 8 * / 2)) with (2 * (powerRZ 2 (-53) * (powerRZ 2 (- (960)) * / 16))) by field.
      assert (X : / 16 = powerRZ 2 (-4)) by (change (powerRZ 2 (-4)) with (/ (2 * (2 * (2 * (2 * 1))))); field). rewrite X, <- !powerRZ_add by lra.
      change (-53 + (- (960) + -4))%Z with (-1017)%Z. assert (Y : powerRZ 2 (-1017) = powerRZ 2 5 * powerRZ 2 (-1022)) by (rewrite <- powerRZ_add by lra; reflexivity).
      rewrite Y. change (powerRZ 2 5) with (2 ^ 5). pose proof (pow2_pos (-1022)). lra.
    - pose proof (pow2_pos (-53)). apply Rmult_le_compat; try lra. apply Rmult_le_compat; lra. }
  destruct (mul_norm k s DK Ds (below_finite _ _ BM) (or_intror N)) as [DM [d6 [H6 E6]]]. split; [exact DM|].
  rewrite E6, E5. unfold k. rewrite boundB_value. apply near_one in H6.
  replace (boundB * ((1 - u) * (1 - u)) * S) with (boundB * (S * (1 - u)) * (1 - u)) by ring.
  apply Rmult_le_compat; try lra; [apply Rmult_le_pos; [lra|apply Rmult_le_pos; lra]|]. apply Rmult_le_compat_l; [lra|]. apply Rmult_le_compat_l; lra.
Qed.
(** *** the second stage: no overflow, and the sign is right when the estimate passes the second bound *)
Definition part_B (K : bounds FOps) (pa pb pc : vec FOps) : list f64 :=
  let l := two_product FOps (splitter FOps K) (sub FOps (vx pa) (vx pc)) (sub FOps (vy pb) (vy pc)) in
  let r := two_product FOps (splitter FOps K) (sub FOps (vy pa) (vy pc)) (sub FOps (vx pb) (vx pc)) in
  two_two_diff FOps (fst l) (snd l) (fst r) (snd r).
Lemma fst_product : forall spl a b, fst (two_product FOps spl a b) = SFmul prec emax a b.
Proof. intros. unfold two_product, split. reflexivity. Qed.
Lemma small_tail : forall x X, Rabs x <= u * Rabs X -> Rabs x <= Rabs X.
Proof. intros x X H. pose proof u_small. pose proof (Rabs_pos X). nra. Qed.
Lemma no_small : forall A B a b, A = 0 \/ powerRZ 2 (- (480)) / 2 <= Rabs A -> B = 0 \/ powerRZ 2 (- (480)) / 2 <= Rabs B -> a = A -> b = B -> a * b = 0 \/ powerRZ 2 (-969) <= Rabs (a * b).
Proof.
  intros A B a b [HA|HA] [HB|HB] -> ->; try (left; rewrite HA; ring); try (left; rewrite HB; ring). right. rewrite Rabs_mult.
  pose proof (pow2_pos (- (480))). apply Rle_trans with (powerRZ 2 (- (480)) / 2 * (powerRZ 2 (- (480)) / 2)); [|apply Rmult_le_compat; lra].
  assert (X : powerRZ 2 (- (480)) / 2 = powerRZ 2 (-481)). { change (powerRZ 2 (- (480)) / 2) with (powerRZ 2 (- (480)) * / 2). replace (/ 2) with (powerRZ 2 (-1)) by (change (powerRZ 2 (-1)) with (/ (2 * 1)); rewrite Rmult_1_r; reflexivity). rewrite <- powerRZ_add by lra. reflexivity. }
  rewrite X, <- powerRZ_add by lra. rewrite !powerRZ_Rpower by lra. apply Rle_Rpower; [lra|apply IZR_le; lia].
Qed.
(** *** results of the adaptive stage *)
Lemma mul_abs : forall x y, double x -> double y -> finite (SFmul prec emax x y) ->
  double (SFmul prec emax x y) /\ Rabs (value (SFmul prec emax x y) - value x * value y) <= u * Rabs (value x * value y) + powerRZ 2 (-1075).
Proof.
  intros x y DX DY F. destruct (mul_rn x y DX DY F) as [D V]. split; [exact D|]. rewrite V.
  destruct (error_N_FLT radix2 (-1074) 53 eq_refl ch (value x * value y)) as [e [t [He [Ht [_ E]]]]]. rewrite E.
  replace (value x * value y * (1 + e) + t - value x * value y) with (value x * value y * e + t) by ring. eapply Rle_trans; [apply Rabs_triang|]. apply Rplus_le_compat.
  - rewrite Rabs_mult, (Rmult_comm u). apply Rmult_le_compat_l; [apply Rabs_pos|]. rewrite <- u_half. exact He.
  - eapply Rle_trans; [exact Ht|]. rewrite bpow_powerRZ. change (IZR radix2) with 2. change (-1074)%Z with (1 + -1075)%Z. rewrite powerRZ_add by lra. change (powerRZ 2 1) with (2 * 1). lra.
Qed.
Lemma near_sign : forall d T, Rabs (d - T) < Rabs d -> same_sign d T.
Proof.
  intros d T H. apply same_sign_cases. destruct (Rtotal_order d 0) as [Q|[Q|Q]].
  - right. left. rewrite (Rabs_left d) in H by lra. apply Rabs_def2 in H. lra.
  - subst d. rewrite Rabs_R0 in H. pose proof (Rabs_pos (0 - T)). lra.
  - left. rewrite (Rabs_right d) in H by lra. apply Rabs_def2 in H. lra.
Qed.
Lemma sign_round : forall a d e T, Rabs e <= u -> a = d * (1 + e) -> same_sign a T -> same_sign d T.
Proof.
  intros a d e T He E H. apply near_one in He. pose proof u_small. subst a. unfold same_sign in *.
  assert (P : 0 < d <-> 0 < d * (1 + e)) by (split; intros; [apply Rmult_lt_0_compat; lra|destruct (Rlt_le_dec 0 d); auto; nra]).
  assert (N : d < 0 <-> d * (1 + e) < 0) by (split; intros; [nra|destruct (Rlt_le_dec d 0); auto; nra]). tauto.
Qed.
Lemma sign_opp : forall a b, same_sign (- a) (- b) -> same_sign a b. Proof. intros a b [H G]. unfold same_sign. split; split; intros; lra. Qed.
Lemma passes : forall x e, double x -> double e -> geb FOps x e || geb FOps (SFopp x) e = true -> value e <= Rabs (value x).
Proof.
  intros x e DX DE C. apply orb_true_iff in C. destruct C as [C|C].
  - apply (geb_value _ _ DX DE) in C. pose proof (Rle_abs (value x)). lra.
  - apply (geb_value _ _ (opp_double _ DX) DE) in C. rewrite opp_value in C. rewrite <- Rabs_Ropp. pose proof (Rle_abs (- value x)). lra.
Qed.
Lemma is_zero : forall x, SFeqb x (S754_zero false) = true -> value x = 0.
Proof. intros [s|s| |s m e] H; try reflexivity; destruct s; discriminate H. Qed.
Lemma zero_tail : forall x, double x -> value x = 0 -> SFeqb x (S754_zero false) = true.
Proof. intros x D V. apply (eqb_value _ _ D zero_double). exact V. Qed.
Lemma wider : forall p, in_range 400 440 p -> in_range 400 480 p.
Proof.
  intros p [D [B [M1 M2]]]. split; [exact D|]. split; [exact B|].
  assert (W : forall x, multiple 440 x -> multiple 480 x).
  { intros x [n E]. exists (n * 2 ^ 40)%Z. rewrite E, mult_IZR. change (- (440))%Z with (40 + - (480))%Z. rewrite powerRZ_add by lra. change (powerRZ 2 40) with (2 ^ 40). rewrite pow_IZR. change (2 ^ Z.of_nat 40)%Z with (2 ^ 40)%Z. ring. }
  split; apply W; auto.
Qed.
Lemma errboundC_ok : forall s det S, double s -> double det -> below 815 s -> below 833 det -> powerRZ 2 (- (880)) / 8 <= S -> (exists d, Rabs d <= u /\ value s = S * (1 + d)) ->
  let a := if geb FOps det (S754_zero false) then det else SFopp det in
  let e := SFadd prec emax (SFmul prec emax (S754_finite false 5066549580791812 (-155)) s) (SFmul prec emax (S754_finite false 6755399441055746 (-104)) a) in
  double e /\ 17 / 2 * (u * u) * S + 2 * u * Rabs (value det) <= value e /\ 0 <= powerRZ 2 (-1075) <= u * u * u * S.
Proof.
  intros s det S Ds Dd Bs Bd LS [d [Hd Ed]] a e.
  assert (DA : double a /\ below 833 a /\ value a = Rabs (value det)).
  { unfold a. destruct (geb FOps det (S754_zero false)) eqn:C.
    - apply (geb_value _ _ Dd zero_double) in C. change (value (zero FOps)) with 0 in C. split; [exact Dd|]. split; [exact Bd|]. rewrite Rabs_right by lra. reflexivity.
    - split; [apply opp_double; exact Dd|]. split; [destruct det; auto|]. rewrite opp_value. rewrite Rabs_left1; [reflexivity|].
      destruct (Rle_lt_dec (value det) 0) as [Q|Q]; [exact Q|]. assert (X : geb FOps det (S754_zero false) = true) by (apply (geb_value _ _ Dd zero_double); change (value (zero FOps)) with 0; lra). congruence. }
  destruct DA as [DA [BA VA]]. clearbody a. unfold e. set (c := S754_finite false 5066549580791812 (-155)). set (r := S754_finite false 6755399441055746 (-104)).
  assert (VC : value c = (9 + 64 * u) * (u * u)).
  { unfold c, value. rewrite u_num. change (powerRZ 2 (-155)) with (/ 2 ^ 155). rewrite pow_IZR. change (2 ^ Z.of_nat 155)%Z with 45671926166590716193865151022383844364247891968%Z. lra. }
  assert (VR : value r = (3 + 8 * u) * u).
  { unfold r, value. rewrite u_num. change (powerRZ 2 (-104)) with (/ 2 ^ 104). rewrite pow_IZR. change (2 ^ Z.of_nat 104)%Z with 20282409603651670423947251286016%Z. lra. }
  assert (DC : double c) by (split; [exact I|reflexivity]). assert (DR : double r) by (split; [exact I|reflexivity]).
  assert (BC : below 0 c) by (split; [lia|reflexivity]). assert (BR : below 0 r) by (split; [lia|reflexivity]).
  assert (B1 : below 816 (SFmul prec emax c s)) by (apply (mul_in 0 815); auto; lia). assert (B2 : below 834 (SFmul prec emax r a)) by (apply (mul_in 0 833); auto; lia).
  assert (B3 : below 836 (SFadd prec emax (SFmul prec emax c s) (SFmul prec emax r a))) by (apply (add_in 834); try lia; [low 816%Z; exact B1|exact B2]).
  destruct (mul_abs c s DC Ds (below_finite _ _ B1)) as [D1 E1]. destruct (mul_abs r a DR DA (below_finite _ _ B2)) as [D2 E2].
  destruct (add_back _ _ D1 D2 (below_finite _ _ B3)) as [D3 [t [Ht E3]]]. split; [exact D3|].
  assert (PP : powerRZ 2 (-1075) <= u * u * u * S).
  { apply Rle_trans with (u * u * u * (powerRZ 2 (- (880)) / 8)).
    - unfold u. assert (X : powerRZ 2 (- (880)) / 8 = powerRZ 2 (-883)). { change (powerRZ 2 (- (880)) / 8) with (powerRZ 2 (- (880)) * / 8). assert (Y : / 8 = powerRZ 2 (-3)) by (change (powerRZ 2 (-3)) with (/ (2 * (2 * (2 * 1)))); field). rewrite Y, <- powerRZ_add by lra. reflexivity. }
      rewrite X, <- !powerRZ_add by lra. rewrite !powerRZ_Rpower by lra. apply Rle_Rpower; [lra|apply IZR_le; lia].
    - pose proof u_pos. apply Rmult_le_compat_l; [|exact LS]. apply Rmult_le_pos; [apply Rmult_le_pos|]; lra. }
  pose proof (pow2_pos (-1075)) as PE. split; [|lra].
  assert (SP : 0 < S) by (pose proof (pow2_pos (- (880))); lra).
  rewrite VC, Ed in E1. rewrite VR, VA in E2. set (P := value (SFmul prec emax c s)) in *. set (Q := value (SFmul prec emax r a)) in *. set (V := value (SFadd prec emax _ _)) in *. set (D := Rabs (value det)) in *.
  assert (PD : 0 <= D) by (apply Rabs_pos). clearbody P Q V D. pose proof u_small as U.
  assert (L1 : (9 + 30 * u) * (u * u) * S <= P).
  { apply near_one in Hd. assert (X : (9 + 64 * u) * (u * u) * (S * (1 - u)) <= (9 + 64 * u) * (u * u) * (S * (1 + d))) by (apply Rmult_le_compat_l; [nra|apply Rmult_le_compat_l; lra]).
    rewrite (Rabs_right ((9 + 64 * u) * (u * u) * (S * (1 + d)))) in E1 by (apply Rle_ge, Rmult_le_pos; [nra|apply Rmult_le_pos; lra]). apply Rabs_le_inv in E1.
    set (W := (9 + 64 * u) * (u * u) * (S * (1 + d))) in *. clearbody W. clear - E1 X PP SP. rewrite u_num in *. lra. }
  assert (L2 : (3 + 2 * u) * u * D - u * u * u * S <= Q).
  { rewrite (Rabs_right ((3 + 8 * u) * u * D)) in E2 by (apply Rle_ge, Rmult_le_pos; [nra|lra]). apply Rabs_le_inv in E2. clear - E2 PP PD. rewrite u_num in *. lra. }
  assert (PQ : 0 <= P + Q). { clear - L1 L2 SP PD. rewrite u_num in *. lra. }
  assert (L3 : (P + Q) * (1 - u) <= V).
  { apply near_one in Ht. assert (VP : 0 <= V) by (destruct (Rle_lt_dec 0 V); auto; nra). rewrite E3. nra. }
  clear - L1 L2 L3 SP PD. rewrite u_num in *. lra.
Qed.
Lemma adapt_sign : forall fuel K (pa pb pc : vec FOps) s res, exactinit FOps fuel fhalf = Some K -> in_range 400 440 pa -> in_range 400 440 pb -> in_range 400 440 pc ->
  counterclockwise FOps K false pa pb pc = Adaptive s -> counterclockwise_adapt FOps K pa pb pc s = Ok res -> double res /\ same_sign (value res) (turn (place pa) (place pb) (place pc)).
Proof.
  intros fuel K pa pb pc s res E RA RB RC H. destruct (adaptive_sum fuel K pa pb pc s E RA RB RC H) as [DS [BS [LL [SG [CL DD]]]]]. clear H.
  destruct (bounds_value _ _ E) as [_ [ES _]]. destruct (bounds_rest _ _ E) as [EB [EC ER]]. apply wider in RA, RB, RC.
  destruct RA as [[Dax Day] [[Bax Bay] [Max May]]]. destruct RB as [[Dbx Dby] [[Bbx Bby] [Mbx Mby]]]. destruct RC as [[Dcx Dcy] [[Bcx Bcy] [Mcx Mcy]]].
  destruct (sub_ok 400 480 (vx pa) (vx pc)) as [D1 [B1 [_ [_ [_ N1]]]]]; auto; try lia. destruct (sub_ok 400 480 (vy pb) (vy pc)) as [D2 [B2 [_ [_ [_ N2]]]]]; auto; try lia.
  destruct (sub_ok 400 480 (vy pa) (vy pc)) as [D3 [B3 [_ [_ [_ N3]]]]]; auto; try lia. destruct (sub_ok 400 480 (vx pb) (vx pc)) as [D4 [B4 [_ [_ [_ N4]]]]]; auto; try lia.
  destruct (diff_in 400 (vx pa) (vx pc) Bax Bcx ltac:(lia)) as [_ K1]. destruct (diff_parts _ _ Dax Dcx (below_finite _ _ K1)) as [_ [Dt1 [St1 T1]]].
  destruct (diff_in 400 (vy pb) (vy pc) Bby Bcy ltac:(lia)) as [_ K2]. destruct (diff_parts _ _ Dby Dcy (below_finite _ _ K2)) as [_ [Dt2 [St2 T2]]].
  destruct (diff_in 400 (vy pa) (vy pc) Bay Bcy ltac:(lia)) as [_ K3]. destruct (diff_parts _ _ Day Dcy (below_finite _ _ K3)) as [_ [Dt3 [St3 T3]]].
  destruct (diff_in 400 (vx pb) (vx pc) Bbx Bcx ltac:(lia)) as [_ K4]. destruct (diff_parts _ _ Dbx Dcx (below_finite _ _ K4)) as [_ [Dt4 [St4 T4]]].
  unfold two_diff in *. cbv zeta in *. cbn [fst snd sub FOps] in *.
  unfold counterclockwise_adapt. cbv zeta. cbn [sub mul opp zero FOps]. change f64_prec with 53%Z in *. change f64_emax with 1024%Z in *. change (400 + 2)%Z with 402%Z in *. change (400 + 10)%Z with 410%Z in *.
  assert (TE : turn (place pa) (place pb) (place pc) = (value (vx pa) - value (vx pc)) * (value (vy pb) - value (vy pc)) - (value (vy pa) - value (vy pc)) * (value (vx pb) - value (vx pc)))
    by (unfold turn, place, px, py; cbn [vx vy]; ring). rewrite TE. rewrite <- St1, <- St2, <- St3, <- St4. clear TE St1 St2 St3 St4 Bax Bay Max May Bbx Bby Mbx Mby Bcx Bcy Mcx Mcy.
  set (A := SFsub prec emax (vx pa) (vx pc)) in *. set (B := SFsub prec emax (vy pb) (vy pc)) in *. set (Y := SFsub prec emax (vy pa) (vy pc)) in *. set (X := SFsub prec emax (vx pb) (vx pc)) in *.
  set (ta := two_diff_tail FOps (vx pa) (vx pc) A) in *. set (tb := two_diff_tail FOps (vy pb) (vy pc) B) in *. set (ty := two_diff_tail FOps (vy pa) (vy pc) Y) in *. set (tx := two_diff_tail FOps (vx pb) (vx pc) X) in *.
  set (spl := splitter FOps K) in *. clearbody A B Y X ta tb ty tx.
  assert (BSP : below 28 spl) by (rewrite ES; split; [lia|reflexivity]). assert (DSP : double spl) by (rewrite ES; split; [exact I|reflexivity]).
  assert (VSP : value spl = powerRZ 2 27 + 1).
  { rewrite ES. unfold value. change (powerRZ 2 (-25)) with (/ 2 ^ 25). change (powerRZ 2 27) with (2 ^ 27). rewrite !pow_IZR. change (2 ^ Z.of_nat 25)%Z with 33554432%Z. change (2 ^ Z.of_nat 27)%Z with 134217728%Z. lra. }
  pose proof (no_small _ _ _ _ N1 N2 eq_refl eq_refl) as U1. pose proof (no_small _ _ _ _ N3 N4 eq_refl eq_refl) as U2.
  destruct (product_in spl A B BSP B1 B2) as [BL FL]. destruct (product_in spl Y X BSP B3 B4) as [BR FR].
  destruct (product_exact spl A B DSP VSP D1 D2 FL U1) as [DL [DLt [VL SL]]]. destruct (product_exact spl Y X DSP VSP D3 D4 FR U2) as [DR [DRt [VR SR]]].
  assert (ML : Rabs (value (snd (two_product FOps spl A B))) <= u * Rabs (value (fst (two_product FOps spl A B)))) by (rewrite VL; apply mul_back; [exact U1|]; rewrite <- VL; exact SL).
  assert (MR : Rabs (value (snd (two_product FOps spl Y X))) <= u * Rabs (value (fst (two_product FOps spl Y X)))) by (rewrite VR; apply mul_back; [exact U2|]; rewrite <- VR; exact SR).
  clear VL VR U1 U2 N1 N2 N3 N4. rewrite <- (fst_product spl) in LL. rewrite <- !(fst_product spl) in SG. rewrite <- !(fst_product spl) in CL. rewrite <- !(fst_product spl) in DD.
  destruct (two_product FOps spl A B) as [dl lt]. destruct (two_product FOps spl Y X) as [dr rt]. cbn [fst snd] in *.
  assert (BLt : below 805 lt) by (apply value_below; [exact FL|]; eapply Rle_lt_trans; [apply small_tail; exact ML|apply below_value; exact BL]).
  assert (BRt : below 805 rt) by (apply value_below; [exact FR|]; eapply Rle_lt_trans; [apply small_tail; exact MR|apply below_value; exact BR]).
  set (rest := fun s t : f64 * f64 => two_two_diff FOps (fst s) (snd s) (fst t) (snd t)).
  assert (LR4 : forall s t, List.length (rest s t) = 4%nat).
  { intros s' t'. unfold rest, two_two_diff. destruct (two_one_diff FOps (fst s') (snd s') (snd t')) as [[a b] c]. destruct (two_one_diff FOps a b (fst t')) as [[a' b'] c']. reflexivity. }
  unfold two_two_diff at 1. unfold two_one_diff at 1 2.
  destruct (diff_in 805 lt rt BLt BRt ltac:(lia)) as [I1 I2]. destruct (diff_parts lt rt DLt DRt (below_finite _ _ I2)) as [E1 [E2 [E3 E4]]].
  destruct (two_diff FOps lt rt) as [i x0]. cbn [fst snd] in *.
  destruct (sum_in 807 dl i ltac:(low 805%Z; exact BL) I1 ltac:(lia)) as [I3 I4]. destruct (sum_parts dl i DL E1 (below_finite _ _ I4)) as [F1 [F2 [F3 F4]]]. destruct (two_sum_exact dl i DL E1 (below_finite _ _ I4)) as [_ [_ [VJ _]]].
  destruct (two_sum FOps dl i) as [j z]. cbn [fst snd] in *.
  destruct (diff_in 817 z dr I4 ltac:(low 805%Z; exact BR) ltac:(lia)) as [I5 I6]. destruct (diff_parts z dr F2 DR (below_finite _ _ I6)) as [G1 [G2 [G3 G4]]]. destruct (two_diff_exact z dr F2 DR (below_finite _ _ I6)) as [_ [_ [VK _]]].
  destruct (two_diff FOps z dr) as [k x1]. cbn [fst snd] in *.
  destruct (sum_in 819 j k ltac:(low 809%Z; exact I3) I5 ltac:(lia)) as [I7 I8]. destruct (sum_parts j k F1 G1 (below_finite _ _ I8)) as [P1 [P2 [P3 P4]]]. destruct (two_sum_exact j k F1 G1 (below_finite _ _ I8)) as [_ [_ [VX _]]].
  destruct (two_sum FOps j k) as [x3 x2]. cbn [fst snd] in *.
  cbn [estimate get nth_error forM_range forM_from Nat.sub bind]. cbn [add FOps]. change f64_prec with 53%Z. change f64_emax with 1024%Z.
  assert (J1 : below 829 (SFadd prec emax x0 x1)) by (apply (add_in 827); try lia; [low 815%Z; exact I2|exact I6]).
  assert (J2 : below 831 (SFadd prec emax (SFadd prec emax x0 x1) x2)) by (apply (add_in 829); try lia; [exact J1|exact I8]).
  assert (J3 : below 833 (SFadd prec emax (SFadd prec emax (SFadd prec emax x0 x1) x2) x3)) by (apply (add_in 831); try lia; [exact J2|low 821%Z; exact I7]).
  destruct (add_back x0 x1 E2 G2 (below_finite _ _ J1)) as [Q1 [e1 [O1 W1]]]. destruct (add_rn x0 x1 E2 G2 (below_finite _ _ J1)) as [_ V1]. set (s1 := SFadd prec emax x0 x1) in *.
  destruct (add_back s1 x2 Q1 P2 (below_finite _ _ J2)) as [Q2 [e2 [O2 W2]]]. destruct (add_rn s1 x2 Q1 P2 (below_finite _ _ J2)) as [_ V2]. set (s2 := SFadd prec emax s1 x2) in *.
  destruct (add_back s2 x3 Q2 P1 (below_finite _ _ J3)) as [Q3 [e3 [O3 W3]]]. set (det := SFadd prec emax s2 x3) in *.
  assert (PP : 0 < Rabs (value dl) + Rabs (value dr)) by (pose proof (pow2_pos (- (880))); pose proof (Rabs_pos (value dr)); lra).
  assert (LS : powerRZ 2 (- (880)) / 8 <= Rabs (value dl) + Rabs (value dr)) by (pose proof (Rabs_pos (value dr)); lra).
  rewrite EB, EC, ER. set (eb := SFmul prec emax (S754_finite false 4503599627370499 (-104)) s).
  destruct (geb FOps det eb || geb FOps (SFopp det) eb) eqn:CB.
  { intros H. injection H as <-. split; [exact Q3|]. apply near_sign.
    assert (P96 : powerRZ 2 (- (960)) <= powerRZ 2 (- (880))) by (rewrite !powerRZ_Rpower by lra; apply Rle_Rpower; [lra|apply IZR_le; lia]).
    destruct (errboundB_ok s (Rabs (value dl) + Rabs (value dr)) DS BS ltac:(lra) DD) as [DE LE]. pose proof (passes det eb Q3 DE CB) as BD. fold eb in LE.
    apply (stage_core (value A) (value ta) (value B) (value tb) (value Y) (value ty) (value X) (value tx) (value dl) (value lt) (value dr) (value rt) (value i) (value x0) (value j) (value z) (value k) (value x1) (value x2) (value x3)
      (value s1) e1 (value s2) e2 (value det) e3 T1 T2 T3 T4 SL ML SR MR E3 E4 F3 F4 G3 G4 P3 P4 O1 W1 O2 W2 O3 W3 PP). unfold boundB in LE. lra. }
  clear CB eb. match goal with |- (if ?c then _ else _) = _ -> _ => destruct c eqn:CZ end.
  { intros H. injection H as <-. split; [exact Q3|]. apply (sign_round _ _ _ _ O3 W3).
    apply andb_true_iff in CZ. destruct CZ as [CZ Z4]. apply andb_true_iff in CZ. destruct CZ as [CZ Z3]. apply andb_true_iff in CZ. destruct CZ as [Z1 Z2].
    apply is_zero in Z1, Z2, Z3, Z4. rewrite Z1, Z2, Z3, Z4, !Rplus_0_r, <- SL, <- SR.
    replace (value dl + value lt - (value dr + value rt)) with (value x0 + value x1 + value x2 + value x3) by lra.
    pose proof (value_fmt _ DL). pose proof (value_fmt _ DR). pose proof (value_fmt _ E2). pose proof (value_fmt _ F1). pose proof (value_fmt _ G1). pose proof (value_fmt _ G2). pose proof (value_fmt _ P1). pose proof (value_fmt _ Q1).
    destruct SG as [[SG1 SG2]|[SG1 SG2]].
    - apply (zero_core (value dl) (value lt) (value dr) (value rt) (value i) (value x0) (value j) (value z) (value k) (value x1) (value x2) (value x3) (value s1) (value s2)); auto.
      rewrite (Rabs_right (value dl)), (Rabs_right (value dr)) in CL by lra. exact CL.
    - apply sign_opp. replace (- (value s2 + value x3)) with (- value s2 + - value x3) by ring. replace (- (value x0 + value x1 + value x2 + value x3)) with (- value x0 + - value x1 + - value x2 + - value x3) by ring.
      apply (zero_core (- value dl) (- value lt) (- value dr) (- value rt) (- value i) (- value x0) (- value j) (- value z) (- value k) (- value x1) (- value x2) (- value x3) (- value s1) (- value s2));
        try (apply generic_format_opp; assumption); try (rewrite !Rabs_Ropp; assumption); try lra.
      + rewrite (Rabs_left (value dl)), (Rabs_left (value dr)) in CL by lra. replace (- value dl - - value dr) with (- (value dl - value dr)) by ring. rewrite Rabs_Ropp. exact CL.
      + rewrite VJ, <- rn_opp. f_equal. ring.
      + rewrite VK, <- rn_opp. f_equal. ring.
      + rewrite VX, <- rn_opp. f_equal. ring.
      + rewrite V1, <- rn_opp. f_equal. ring.
      + rewrite V2, <- rn_opp. f_equal. ring. }
  clear CZ VJ VK VX V1 V2.
  assert (L1 : forall p q, below 402 p -> below 410 q -> below 813 (SFmul prec emax p q)) by (intros; apply (mul_in 402 410); auto; lia).
  pose proof (L1 _ _ B1 K2) as N1. pose proof (L1 _ _ B2 K1) as N2. pose proof (L1 _ _ B3 K4) as N3. pose proof (L1 _ _ B4 K3) as N4.
  destruct (mul_abs A tb D1 Dt2 (below_finite _ _ N1)) as [C1 R1]. destruct (mul_abs B ta D2 Dt1 (below_finite _ _ N2)) as [C2 R2]. destruct (mul_abs Y tx D3 Dt4 (below_finite _ _ N3)) as [C3 R3]. destruct (mul_abs X ty D4 Dt3 (below_finite _ _ N4)) as [C4 R4].
  set (q1 := SFmul prec emax A tb) in *. set (q2 := SFmul prec emax B ta) in *. set (q3 := SFmul prec emax Y tx) in *. set (q4 := SFmul prec emax X ty) in *.
  assert (N5 : below 815 (SFadd prec emax q1 q2)) by (apply (add_in 813); auto; lia). assert (N6 : below 815 (SFadd prec emax q3 q4)) by (apply (add_in 813); auto; lia).
  destruct (add_back q1 q2 C1 C2 (below_finite _ _ N5)) as [C5 [f1 [H1 R5]]]. destruct (add_back q3 q4 C3 C4 (below_finite _ _ N6)) as [C6 [f2 [H2 R6]]].
  set (m1 := SFadd prec emax q1 q2) in *. set (m2 := SFadd prec emax q3 q4) in *.
  assert (N7 : below 817 (SFsub prec emax m1 m2)) by (apply (sub_in 815); auto; lia).
  destruct (sub_rn m1 m2 C5 C6 (below_finite _ _ N7)) as [C7 V7]. destruct (rn_plus (value m1) (- value m2) (value_fmt _ C5) (generic_format_opp _ _ _ (value_fmt _ C6))) as [f3 [H3 R7]]. fold (value m1 - value m2) in R7. rewrite <- V7 in R7.
  set (n := SFsub prec emax m1 m2) in *.
  assert (N8 : below 835 (SFadd prec emax det n)) by (apply (add_in 833); try lia; [exact J3|low 817%Z; exact N7]).
  destruct (add_back det n Q3 C7 (below_finite _ _ N8)) as [C8 [f4 [H4 R8]]]. set (d2 := SFadd prec emax det n) in *.
  destruct (errboundC_ok s det _ DS Q3 BS J3 LS DD) as [DE [LE ET]]. cbv zeta in DE, LE.
  set (eb := SFadd prec emax _ _) in DE, LE |- *.
  destruct (geb FOps d2 eb || geb FOps (SFopp d2) eb) eqn:CC.
  { intros H. injection H as <-. split; [exact C8|]. apply near_sign. pose proof (passes d2 eb C8 DE CC) as BD.
    apply (third_core (value A) (value ta) (value B) (value tb) (value Y) (value ty) (value X) (value tx) (value dl) (value lt) (value dr) (value rt) (value i) (value x0) (value j) (value z) (value k) (value x1) (value x2) (value x3)
      (value s1) e1 (value s2) e2 (value det) e3 (powerRZ 2 (-1075)) (value q1) (value q2) (value q3) (value q4) (value m1) f1 (value m2) f2 (value n) f3 (value d2) f4
      T1 T2 T3 T4 SL ML SR MR CL E3 E4 F3 F4 G3 G4 P3 P4 O1 W1 O2 W2 O3 W3 R1 R2 R3 R4 H1 R5 H2 R6 H3 R7 H4 R8 PP ET). lra. }
  intros H. exfalso. match type of H with context [fast_expansion_sum FOps 4 ?e 4 ?f 8] =>
    destruct (reads_past_the_end FOps e f 8) as [w W]; assert (LF : List.length f = 4%nat) by (apply (LR4 (two_product FOps spl ta B) (two_product FOps spl ty X))); assert (LE4 : List.length e = 4%nat) by (apply (LR4 (dl, lt) (dr, rt))); rewrite LF, LE4 in W; rewrite W in H end.
  discriminate H.
Qed.
