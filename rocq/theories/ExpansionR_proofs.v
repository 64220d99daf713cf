(** Sums, differences, products and expansions of binary64 numbers without error. *)
From Coq Require Import List Arith ZArith NArith Bool Lia Reals Lra Psatz.
From Coq Require Import Floats.SpecFloat.
From Flocq Require Import Core BinarySingleNaN Relative.
From Flocq Require Pff.Pff2Flocq.
From Verif Require Import Base GeometryModel GeometrySpec FloatSpec Float_proofs FloatBound_proofs RoundSpec Round_proofs RoundUse_proofs PredicateModel PredicateSpec Predicate_proofs ExpansionModel ExpansionSpec Expansion_proofs.
Import ListNotations.
Local Open Scope R_scope.
Local Notation prec := 53%Z.
Local Notation emax := 1024%Z.
#[local] Existing Instance Round_proofs.Hprec.
#[local] Existing Instance Round_proofs.Hmax.
Local Notation ch := (fun n => negb (Z.even n)).
Local Notation rn := (round radix2 (FLT_exp (-1074) 53) (Znearest ch)).
Local Notation fmt := (generic_format radix2 (FLT_exp (-1074) 53)).

Lemma add_rn : forall x y, double x -> double y -> finite (SFadd prec emax x y) -> double (SFadd prec emax x y) /\ value (SFadd prec emax x y) = rn (value x + value y).
Proof.
  intros x y HX HY. destruct (double_B x HX) as [a [<- FA]]. destruct (double_B y HY) as [b [<- FB]]. rewrite add_B. intros F.
  split; [apply B_double; auto|]. pose proof (Bplus_correct prec emax _ _ mode_NE a b FA FB) as C.
  destruct (Rlt_bool _ _).
  - destruct C as [C _]. rewrite !value_B, C. reflexivity.
  - destruct C as [C _]. exfalso. eapply overflow_inf; eauto.
Qed.
Lemma sub_rn : forall x y, double x -> double y -> finite (SFsub prec emax x y) -> double (SFsub prec emax x y) /\ value (SFsub prec emax x y) = rn (value x - value y).
Proof.
  intros x y HX HY. destruct (double_B x HX) as [a [<- FA]]. destruct (double_B y HY) as [b [<- FB]]. rewrite sub_B. intros F.
  split; [apply B_double; auto|]. pose proof (Bminus_correct prec emax _ _ mode_NE a b FA FB) as C.
  destruct (Rlt_bool _ _).
  - destruct C as [C _]. rewrite !value_B, C. reflexivity.
  - destruct C as [C _]. exfalso. eapply overflow_inf; eauto.
Qed.
Lemma mul_rn : forall x y, double x -> double y -> finite (SFmul prec emax x y) -> double (SFmul prec emax x y) /\ value (SFmul prec emax x y) = rn (value x * value y).
Proof.
  intros x y HX HY. destruct (double_B x HX) as [a [<- FA]]. destruct (double_B y HY) as [b [<- FB]]. rewrite mul_B. intros F.
  split; [apply B_double; auto|]. pose proof (Bmult_correct prec emax _ _ mode_NE a b) as C.
  destruct (Rlt_bool _ _).
  - destruct C as [C _]. rewrite !value_B, C. reflexivity.
  - exfalso. eapply overflow_inf; eauto.
Qed.
Lemma value_fmt : forall x, double x -> fmt (value x).
Proof. intros x HX. destruct (double_B x HX) as [a [<- FA]]. rewrite value_B. apply generic_format_B2R. Qed.
Lemma emin_le : (-1074 <= 0)%Z. Proof. lia. Qed.
Lemma ch_sym : forall x : Z, ch x = negb (ch (- (x + 1))%Z).
Proof. intros x. cbv beta. rewrite negb_involutive. rewrite Z.even_opp, Z.even_add. destruct (Z.even x); reflexivity. Qed.
Lemma rn_opp : forall x, rn (- x) = - rn x.
Proof. intros x. apply (round_NE_opp radix2 (FLT_exp (-1074) 53)). Qed.
Lemma rn_id : forall x, fmt x -> rn x = x.
Proof. intros. apply round_generic; auto. apply valid_rnd_N. Qed.
Lemma rn_0 : rn 0 = 0. Proof. apply round_0. apply valid_rnd_N. Qed.

(** *** sums and differences *)
Lemma two_sum_fin : forall a b, finite (snd (two_sum FOps a b)) -> finite (fst (two_sum FOps a b)) /\ finite a /\ finite b.
Proof.
  intros a b H. unfold two_sum in *. cbn [fst snd] in *. cbn [FOps add sub T] in *. apply add_finite in H. destruct H as [H1 H2].
  apply sub_finite in H1. apply sub_finite in H2. destruct H1 as [Fa H1]. destruct H2 as [Fb H2]. apply sub_finite in H2. destruct H2. auto.
Qed.
Lemma two_sum_exact : forall a b, double a -> double b -> finite (snd (two_sum FOps a b)) ->
  let x := fst (two_sum FOps a b) in let y := snd (two_sum FOps a b) in double x /\ double y /\ value x = rn (value a + value b) /\ value x + value y = value a + value b.
Proof.
  intros a b DA DB F. cbv zeta. unfold two_sum in *. cbn [fst snd] in *. cbn [FOps add sub T] in *. change f64_prec with prec in *. change f64_emax with emax in *.
  set (x := SFadd prec emax a b) in *. set (bv := SFsub prec emax x a) in *. set (av := SFsub prec emax x bv) in *. set (br := SFsub prec emax b bv) in *. set (ar := SFsub prec emax a av) in *.
  destruct (add_finite _ _ F) as [Far Fbr]. destruct (sub_finite _ _ Far) as [_ Fav]. destruct (sub_finite _ _ Fav) as [Fx Fbv].
  destruct (add_rn a b DA DB Fx) as [Dx Vx]. destruct (sub_rn x a Dx DA Fbv) as [Dbv Vbv]. destruct (sub_rn x bv Dx Dbv Fav) as [Dav Vav].
  destruct (sub_rn b bv DB Dbv Fbr) as [Dbr Vbr]. destruct (sub_rn a av DA Dav Far) as [Dar Var]. destruct (add_rn ar br Dar Dbr F) as [Dy Vy].
  split; [exact Dx|]. split; [exact Dy|]. split; [exact Vx|].
  fold x in Vx. fold bv in Vbv. fold av in Vav. fold ar in Var. fold br in Vbr. fold x. rewrite Vy, Var, Vbr, Vav, Vbv, Vx.
  apply (Pff2Flocq.TwoSum_correct (-1074) 53 ch eq_refl emin_le ch_sym (value a) (value b)); apply value_fmt; auto.
Qed.
Lemma two_diff_fin : forall a b, finite (snd (two_diff FOps a b)) -> finite (fst (two_diff FOps a b)) /\ finite a /\ finite b.
Proof.
  intros a b H. unfold two_diff, two_diff_tail in *. cbn [fst snd] in *. cbn [FOps add sub T] in *. apply add_finite in H. destruct H as [H1 H2].
  apply sub_finite in H1. apply sub_finite in H2. destruct H1 as [Fa H1]. destruct H2 as [H2 Fb]. apply sub_finite in H2. destruct H2. auto.
Qed.
Lemma two_diff_exact : forall a b, double a -> double b -> finite (snd (two_diff FOps a b)) ->
  let x := fst (two_diff FOps a b) in let y := snd (two_diff FOps a b) in double x /\ double y /\ value x = rn (value a - value b) /\ value x + value y = value a - value b.
Proof.
  intros a b DA DB F. cbv zeta. unfold two_diff, two_diff_tail in *. cbn [fst snd] in *. cbn [FOps add sub T] in *. change f64_prec with prec in *. change f64_emax with emax in *.
  set (x := SFsub prec emax a b) in *. set (bv := SFsub prec emax a x) in *. set (av := SFadd prec emax x bv) in *. set (br := SFsub prec emax bv b) in *. set (ar := SFsub prec emax a av) in *.
  destruct (add_finite _ _ F) as [Far Fbr]. destruct (sub_finite _ _ Far) as [_ Fav]. destruct (add_finite _ _ Fav) as [Fx Fbv].
  destruct (sub_rn a b DA DB Fx) as [Dx Vx]. destruct (sub_rn a x DA Dx Fbv) as [Dbv Vbv]. destruct (add_rn x bv Dx Dbv Fav) as [Dav Vav].
  destruct (sub_rn bv b Dbv DB Fbr) as [Dbr Vbr]. destruct (sub_rn a av DA Dav Far) as [Dar Var]. destruct (add_rn ar br Dar Dbr F) as [Dy Vy].
  split; [exact Dx|]. split; [exact Dy|]. split; [exact Vx|].
  fold x in Vx. fold bv in Vbv. fold av in Vav. fold ar in Var. fold br in Vbr. fold x.
  pose proof (Pff2Flocq.TwoSum_correct (-1074) 53 ch eq_refl emin_le ch_sym (value a) (- value b) (value_fmt a DA) (generic_format_opp _ _ _ (value_fmt b DB))) as TS.
  change (value a + - value b) with (value a - value b) in TS. rewrite <- Vx in TS.
  assert (E1 : rn (value x - value a) = - value bv) by (rewrite Vbv, <- rn_opp; apply f_equal; ring). rewrite E1 in TS.
  replace (value x - - value bv) with (value x + value bv) in TS by ring. rewrite <- Vav in TS. rewrite <- Var in TS.
  replace (- value b - - value bv) with (value bv - value b) in TS by ring. rewrite <- Vbr, <- Vy in TS. exact TS.
Qed.
Lemma fast_fin : forall a b, finite (snd (fast_two_sum FOps a b)) -> finite (fst (fast_two_sum FOps a b)) /\ finite a /\ finite b.
Proof.
  intros a b H. unfold fast_two_sum in *. cbn [fst snd] in *. cbn [FOps add sub T] in *. apply sub_finite in H. destruct H as [Fb H]. apply sub_finite in H. destruct H. auto.
Qed.
Lemma fast_exact : forall a b, double a -> double b -> value a = 0 \/ Rabs (value b) <= Rabs (value a) -> finite (snd (fast_two_sum FOps a b)) ->
  let x := fst (fast_two_sum FOps a b) in let y := snd (fast_two_sum FOps a b) in double x /\ double y /\ value x + value y = value a + value b.
Proof.
  intros a b DA DB O F. cbv zeta. unfold fast_two_sum in *. cbn [fst snd] in *. cbn [FOps add sub T] in *. change f64_prec with prec in *. change f64_emax with emax in *.
  set (x := SFadd prec emax a b) in *. set (bv := SFsub prec emax x a) in *.
  destruct (sub_finite _ _ F) as [_ Fbv]. destruct (sub_finite _ _ Fbv) as [Fx _].
  destruct (add_rn a b DA DB Fx) as [Dx Vx]. destruct (sub_rn x a Dx DA Fbv) as [Dbv Vbv]. destruct (sub_rn b bv DB Dbv F) as [Dy Vy].
  split; [exact Dx|]. split; [exact Dy|]. fold x in Vx. fold bv in Vbv. destruct O as [Z|O].
  - rewrite Z in *. rewrite Rplus_0_l in *. rewrite (rn_id _ (value_fmt b DB)) in Vx. rewrite Vx, Rminus_0_r in Vbv. rewrite (rn_id _ (value_fmt b DB)) in Vbv.
    rewrite Vy, Vbv. replace (value b - value b) with 0 by ring. rewrite rn_0, Vx. ring.
  - pose proof (Pff2Flocq.Fast2Sum_correct (-1074) 53 ch eq_refl emin_le ch_sym (value a) (value b) (value_fmt a DA) (value_fmt b DB) O) as TS.
    rewrite <- Vx in TS. replace (value a - value x) with (- (value x - value a)) in TS by ring. rewrite rn_opp, <- Vbv in TS.
    change (value b + - value bv) with (value b - value bv) in TS. rewrite <- Vy in TS. exact TS.
Qed.

(** *** products *)
Lemma rn_mult_comm : forall x y, rn (x * y) = rn (y * x). Proof. intros. rewrite Rmult_comm. reflexivity. Qed.
Lemma product_exact : forall spl a b, double spl -> value spl = powerRZ 2 27 + 1 -> double a -> double b -> finite (snd (two_product FOps spl a b)) ->
  value a * value b = 0 \/ powerRZ 2 (-969) <= Rabs (value a * value b) ->
  let x := fst (two_product FOps spl a b) in let y := snd (two_product FOps spl a b) in double x /\ double y /\ value x = rn (value a * value b) /\ value x + value y = value a * value b.
Proof.
  intros spl a b DS VS DA DB F U. cbv zeta. unfold two_product, split in *. cbn [fst snd] in *. cbn [FOps add sub mul T] in *. change f64_prec with prec in *. change f64_emax with emax in *.
  set (x := SFmul prec emax a b) in *. set (ca := SFmul prec emax spl a) in *. set (ga := SFsub prec emax ca a) in *. set (ha := SFsub prec emax ca ga) in *. set (la := SFsub prec emax a ha) in *.
  set (cb := SFmul prec emax spl b) in *. set (gb := SFsub prec emax cb b) in *. set (hb := SFsub prec emax cb gb) in *. set (lb := SFsub prec emax b hb) in *.
  set (m1 := SFmul prec emax ha hb) in *. set (e1 := SFsub prec emax x m1) in *. set (m2 := SFmul prec emax la hb) in *. set (e2 := SFsub prec emax e1 m2) in *.
  set (m3 := SFmul prec emax ha lb) in *. set (e3 := SFsub prec emax e2 m3) in *. set (m4 := SFmul prec emax la lb) in *.
  destruct (sub_finite _ _ F) as [F4 F3]. destruct (sub_finite _ _ F3) as [F2 Fm3]. destruct (sub_finite _ _ F2) as [F1 Fm2]. destruct (sub_finite _ _ F1) as [Fx Fm1].
  destruct (mul_finite _ _ F4) as [Fla Flb]. destruct (mul_finite _ _ Fm1) as [Fha Fhb]. destruct (sub_finite _ _ Fha) as [Fca Fga]. destruct (sub_finite _ _ Fhb) as [Fcb Fgb].
  destruct (mul_rn a b DA DB Fx) as [Dx Vx]. destruct (mul_rn spl a DS DA Fca) as [Dca Vca]. destruct (mul_rn spl b DS DB Fcb) as [Dcb Vcb].
  destruct (sub_rn ca a Dca DA Fga) as [Dga Vga]. destruct (sub_rn cb b Dcb DB Fgb) as [Dgb Vgb].
  destruct (sub_rn ca ga Dca Dga Fha) as [Dha Vha]. destruct (sub_rn cb gb Dcb Dgb Fhb) as [Dhb Vhb].
  destruct (sub_rn a ha DA Dha Fla) as [Dla Vla]. destruct (sub_rn b hb DB Dhb Flb) as [Dlb Vlb].
  destruct (mul_rn ha hb Dha Dhb Fm1) as [Dm1 Vm1]. destruct (mul_rn la hb Dla Dhb Fm2) as [Dm2 Vm2]. destruct (mul_rn ha lb Dha Dlb Fm3) as [Dm3 Vm3]. destruct (mul_rn la lb Dla Dlb F4) as [Dm4 Vm4].
  destruct (sub_rn x m1 Dx Dm1 F1) as [De1 Ve1]. destruct (sub_rn e1 m2 De1 Dm2 F2) as [De2 Ve2]. destruct (sub_rn e2 m3 De2 Dm3 F3) as [De3 Ve3]. destruct (sub_rn m4 e3 Dm4 De3 F) as [Dy Vy].
  split; [exact Dx|]. split; [exact Dy|]. split; [exact Vx|].
  fold x in Vx. fold ca in Vca. fold cb in Vcb. fold ga in Vga. fold gb in Vgb. fold ha in Vha. fold hb in Vhb. fold la in Vla. fold lb in Vlb. fold m1 in Vm1. fold m2 in Vm2. fold m3 in Vm3. fold m4 in Vm4.
  fold e1 in Ve1. fold e2 in Ve2. fold e3 in Ve3.
  assert (P4 : (4 <= 53)%Z) by lia. assert (Pm : (-1074 < 0)%Z) by lia.
  destruct (Pff2Flocq.Dekker radix2 (-1074) 53 ch P4 Pm (value b) (value a) (value_fmt b DB) (value_fmt a DA) (or_introl eq_refl)) as [D _].
  change (bpow radix2 (53 - Z.div2 53) + 1) with (bpow radix2 27 + 1) in D. rewrite !(bpow_powerRZ radix2) in D. change (IZR radix2) with 2 in D. rewrite <- VS in D.
  change (-1074 + 2 * 53 - 1)%Z with (-969)%Z in D. rewrite (Rmult_comm (value b) (value a)), (Rmult_comm (value b) (value spl)), (Rmult_comm (value a) (value spl)) in D.
  rewrite <- Vca, <- Vcb, <- Vx in D.
  assert (N : forall p q, rn (p - q) = - rn (q - p)) by (intros p q; rewrite <- rn_opp; apply f_equal; ring).
  rewrite (N (value b) (value cb)), (N (value a) (value ca)), <- Vga, <- Vgb in D.
  replace (- value gb + value cb) with (value cb - value gb) in D by ring. replace (- value ga + value ca) with (value ca - value ga) in D by ring.
  rewrite <- Vha, <- Vhb in D. rewrite <- Vla, <- Vlb in D.
  rewrite (Rmult_comm (value hb) (value ha)), (Rmult_comm (value hb) (value la)), (Rmult_comm (value lb) (value ha)), (Rmult_comm (value lb) (value la)) in D.
  rewrite <- Vm1, <- Vm2, <- Vm3, <- Vm4 in D.
  replace (- value x + value m1) with (value m1 - value x) in D by ring. rewrite (N (value m1) (value x)), <- Ve1 in D.
  replace (- value e1 + value m2) with (value m2 - value e1) in D by ring. rewrite (N (value m2) (value e1)), <- Ve2 in D.
  replace (- value e2 + value m3) with (value m3 - value e2) in D by ring. rewrite (N (value m3) (value e2)), <- Ve3 in D.
  replace (- value e3 + value m4) with (value m4 - value e3) in D by ring. rewrite <- Vy in D. symmetry. apply D. exact U.
Qed.

(** *** the difference of two pairs *)
Lemma two_two_diff_exact : forall a1 a0 b1 b0, double a1 -> double a0 -> double b1 -> double b0 -> Forall finite (two_two_diff FOps a1 a0 b1 b0) ->
  Forall double (two_two_diff FOps a1 a0 b1 b0) /\ total (two_two_diff FOps a1 a0 b1 b0) = (value a1 + value a0) - (value b1 + value b0).
Proof.
  intros a1 a0 b1 b0 A1 A0 B1 B0. unfold two_two_diff, two_one_diff.
  destruct (two_diff FOps a0 b0) as [i x0] eqn:E1. destruct (two_sum FOps a1 i) as [j z] eqn:E2. destruct (two_diff FOps z b1) as [i' x1] eqn:E3. destruct (two_sum FOps j i') as [x3 x2] eqn:E4. intros F.
  pose proof (Forall_inv F) as F0. apply Forall_inv_tail in F. pose proof (Forall_inv F) as F1. apply Forall_inv_tail in F. pose proof (Forall_inv F) as F2. clear F.
  pose proof (two_diff_exact a0 b0 A0 B0) as X1. rewrite E1 in X1. cbn [fst snd] in X1. destruct (X1 F0) as [Di [D0 [_ S1]]].
  pose proof (two_diff_fin z b1) as Y3. rewrite E3 in Y3. cbn [fst snd] in Y3. destruct (Y3 F1) as [_ [Fz _]].
  pose proof (two_sum_exact a1 i A1 Di) as X2. rewrite E2 in X2. cbn [fst snd] in X2. destruct (X2 Fz) as [Dj [Dz [_ S2]]].
  pose proof (two_diff_exact z b1 Dz B1) as X3. rewrite E3 in X3. cbn [fst snd] in X3. destruct (X3 F1) as [Di' [D1 [_ S3]]].
  pose proof (two_sum_exact j i' Dj Di') as X4. rewrite E4 in X4. cbn [fst snd] in X4. destruct (X4 F2) as [D3 [D2 [_ S4]]].
  split; [auto|]. cbn [total]. lra.
Qed.

(** *** the sum of two expansions *)
Lemma total_app : forall a b, total (a ++ b) = total a + total b.
Proof. induction a as [|x a IH]; intros b; cbn [total app]; [ring|]. rewrite IH. ring. Qed.
Lemma eqb_zero_finite : forall y, SFeqb y (S754_zero false) = true -> finite y.
Proof. intros [s|s| |s m e] E; try exact I; [destruct s; discriminate E|discriminate E]. Qed.
Lemma keep_spec : forall h y, Forall finite (keep FOps h y) -> finite y /\ Forall finite h.
Proof.
  intros h y. unfold keep. destruct (eqb FOps y (zero FOps)) eqn:E; intros F.
  - split; auto. exact (eqb_zero_finite y E).
  - apply Forall_app in F. destruct F as [F1 F2]. split; auto. exact (Forall_inv F2).
Qed.
Lemma keep_total : forall h y, double y -> Forall double h -> Forall double (keep FOps h y) /\ total (keep FOps h y) = total h + value y.
Proof.
  intros h y D H. unfold keep. destruct (eqb FOps y (zero FOps)) eqn:E.
  - split; auto. apply eqb_value in E; auto; [|split; [exact I|reflexivity]]. cbn [FOps zero value] in E. rewrite E. ring.
  - split; [apply Forall_app; auto|]. rewrite total_app. cbn [total]. ring.
Qed.
Lemma absorb_fin : forall l q h, finite (fst (absorb FOps q h l)) -> Forall finite (snd (absorb FOps q h l)) -> finite q /\ Forall finite h /\ Forall finite l.
Proof.
  induction l as [|x l IH]; intros q h; cbn [absorb fst snd]; auto. intros F1 F2. destruct (IH _ _ F1 F2) as [_ [K Fl]]. destruct (keep_spec _ _ K) as [Fy Fh].
  destruct (two_sum_fin _ _ Fy) as [_ [Fq Fx]]. auto.
Qed.
Lemma absorb_total : forall l q h, double q -> Forall double h -> Forall double l -> finite (fst (absorb FOps q h l)) -> Forall finite (snd (absorb FOps q h l)) ->
  double (fst (absorb FOps q h l)) /\ Forall double (snd (absorb FOps q h l)) /\ value (fst (absorb FOps q h l)) + total (snd (absorb FOps q h l)) = value q + total h + total l.
Proof.
  induction l as [|x l IH]; intros q h DQ DH DL F1 F2; cbn [absorb fst snd total] in *; [split; [exact DQ|split; [exact DH|ring]]|].
  destruct (absorb_fin _ _ _ F1 F2) as [_ [K _]]. destruct (keep_spec _ _ K) as [Fy _].
  destruct (two_sum_exact q x DQ (Forall_inv DL) Fy) as [D1 [D2 [_ S]]]. destruct (keep_total h _ D2 DH) as [K1 K2].
  destruct (IH _ _ D1 K1 (Forall_inv_tail DL) F1 F2) as [E1 [E2 E3]]. split; auto. split; auto. rewrite E3, K2. lra.
Qed.
Lemma merged_total : forall n es fs, Forall double es -> Forall double fs -> Forall double (merged FOps n es fs) /\ total (merged FOps n es fs) = total es + total fs.
Proof.
  induction n as [|n IH]; intros es fs DE DF; cbn [merged]; [split; [apply Forall_app; auto|apply total_app]|].
  destruct es as [|x es]; [split; [apply Forall_app; auto|apply total_app]|]. destruct fs as [|y fs]; [split; [apply Forall_app; auto|apply total_app]|].
  destruct (take_e FOps x y).
  - destruct (IH es (y :: fs) (Forall_inv_tail DE) DF) as [I1 I2]. split; [constructor; auto; exact (Forall_inv DE)|]. cbn [total] in *. rewrite I2. ring.
  - destruct (IH (x :: es) fs DE (Forall_inv_tail DF)) as [I1 I2]. split; [constructor; auto; exact (Forall_inv DF)|]. cbn [total] in *. rewrite I2. ring.
Qed.
Lemma finish_spec : forall r, Forall finite (finish FOps r) -> finite (fst r) /\ Forall finite (snd r).
Proof.
  intros [q h]. unfold finish. cbn [fst snd]. destruct (eqb FOps q (zero FOps)) eqn:E.
  - assert (Fq : finite q) by (exact (eqb_zero_finite q E)). cbn [negb orb]. destruct (Nat.eqb _ _); intros F; auto. apply Forall_app in F. tauto.
  - cbn [negb orb]. intros F. apply Forall_app in F. destruct F as [F1 F2]. split; auto. exact (Forall_inv F2).
Qed.
Lemma finish_total : forall r, double (fst r) -> Forall double (snd r) -> Forall double (finish FOps r) /\ total (finish FOps r) = value (fst r) + total (snd r).
Proof.
  intros [q h] D H. unfold finish. cbn [fst snd] in *. destruct (_ || _) eqn:E.
  - split; [apply Forall_app; auto|]. rewrite total_app. cbn [total]. ring.
  - split; auto. apply orb_false_elim in E. destruct E as [E _]. apply negb_false_iff in E. apply eqb_value in E; auto; [|split; [exact I|reflexivity]]. cbn [FOps zero value] in E. rewrite E. ring.
Qed.
Lemma take_e_spec : forall x y, double x -> double y -> if take_e FOps x y then Rabs (value x) <= Rabs (value y) else Rabs (value y) <= Rabs (value x).
Proof.
  intros x y DX DY. unfold take_e, gtb. cbn [FOps ltb opp T].
  pose proof (ltb_value x y DX DY) as H1. pose proof (ltb_value (SFopp x) y (opp_double x DX) DY) as H2. rewrite opp_value in H2.
  destruct (SFltb x y); destruct (SFltb (SFopp x) y); cbn [Bool.eqb].
  - assert (value x < value y) by (apply H1; auto). assert (- value x < value y) by (apply H2; auto). unfold Rabs; repeat destruct (Rcase_abs _); lra.
  - assert (value x < value y) by (apply H1; auto). assert (~ (- value x < value y)) by (intros X; apply H2 in X; discriminate X). unfold Rabs; repeat destruct (Rcase_abs _); lra.
  - assert (~ (value x < value y)) by (intros X; apply H1 in X; discriminate X). assert (- value x < value y) by (apply H2; auto). unfold Rabs; repeat destruct (Rcase_abs _); lra.
  - assert (~ (value x < value y)) by (intros X; apply H1 in X; discriminate X). assert (~ (- value x < value y)) by (intros X; apply H2 in X; discriminate X). unfold Rabs; repeat destruct (Rcase_abs _); lra.
Qed.
Lemma first_spec : forall x y es fs, double x -> double y -> Forall double es -> Forall double fs ->
  let '(q, es1, fs1) := first_of FOps x y es fs in double q /\ Forall double es1 /\ Forall double fs1 /\ value q + total es1 + total fs1 = total (x :: es) + total (y :: fs).
Proof.
  intros x y es fs DX DY DE DF. unfold first_of. destruct (take_e FOps x y); cbn [total]; (split; [auto|split; [auto|split; [auto|ring]]]).
Qed.
Lemma pure_total : forall es fs, Forall double es -> Forall double fs -> es <> [] -> fs <> [] -> ordered es -> ordered fs -> Forall finite (pure_sum FOps es fs) ->
  Forall double (pure_sum FOps es fs) /\ total (pure_sum FOps es fs) = total es + total fs.
Proof.
  intros [|x es] [|y fs] DE DF NE NF OE OF; try congruence. unfold pure_sum.
  assert (DX := Forall_inv DE). assert (DY := Forall_inv DF). assert (DE' := Forall_inv_tail DE). assert (DF' := Forall_inv_tail DF).
  pose proof (first_spec x y es fs DX DY DE' DF') as P1. pose proof (take_e_spec x y DX DY) as TK.
  destruct (first_of FOps x y es fs) as [[q es1] fs1] eqn:FO. destruct P1 as [Dq [De1 [Df1 S1]]].
  assert (Z : Forall finite (finish FOps (absorb FOps q [] (es1 ++ fs1))) ->
     Forall double (finish FOps (absorb FOps q [] (es1 ++ fs1))) /\ total (finish FOps (absorb FOps q [] (es1 ++ fs1))) = total (x :: es) + total (y :: fs)).
  { intros F. destruct (finish_spec _ F) as [F1 F2]. assert (DD : Forall double (es1 ++ fs1)) by (apply Forall_app; auto).
    destruct (absorb_total (es1 ++ fs1) q [] Dq (Forall_nil _) DD F1 F2) as [G1 [G2 G3]]. destruct (finish_total _ G1 G2) as [H1 H2]. split; [exact H1|].
    refine (eq_trans H2 (eq_trans G3 _)). refine (eq_trans (f_equal (fun r => value q + total [] + r) (total_app es1 fs1)) _). rewrite <- S1. cbn [total]. ring. }
  destruct es1 as [|x1 es2]; [exact Z|]. destruct fs1 as [|y1 fs2]; [exact Z|]. clear Z.
  pose proof (first_spec x1 y1 es2 fs2 (Forall_inv De1) (Forall_inv Df1) (Forall_inv_tail De1) (Forall_inv_tail Df1)) as P2.
  destruct (first_of FOps x1 y1 es2 fs2) as [[z es3] fs3] eqn:FO2. destruct P2 as [Dz [De3 [Df3 S2]]]. intros F. destruct (finish_spec _ F) as [F1 F2].
  assert (OK : value z = 0 \/ Rabs (value q) <= Rabs (value z)).
  { unfold first_of in FO, FO2. destruct (take_e FOps x y).
    - injection FO as <- -> <- <-. destruct (take_e FOps x1 y); injection FO2 as <- <- <-; [exact OE|right; exact TK].
    - injection FO as <- <- <- ->. destruct (take_e FOps x y1); injection FO2 as <- <- <-; [right; exact TK|exact OF]. }
  destruct (absorb_fin _ _ _ F1 F2) as [_ [K _]]. destruct (keep_spec _ _ K) as [Fy _].
  destruct (fast_exact z q Dz Dq OK Fy) as [G1 [G2 G3]]. destruct (keep_total [] _ G2 (Forall_nil _)) as [K1 K2].
  destruct (merged_total (length es3 + length fs3) es3 fs3 De3 Df3) as [M1 M2].
  destruct (absorb_total _ _ _ G1 K1 M1 F1 F2) as [A1 [A2 A3]]. destruct (finish_total _ A1 A2) as [H1 H2]. split; [exact H1|].
  refine (eq_trans H2 (eq_trans A3 _)). refine (eq_trans (f_equal2 (fun r t => value (fst (fast_two_sum FOps z q)) + r + t) K2 M2) _). cbn [total] in *. lra.
Qed.

Lemma bounds_rest : forall fuel B, exactinit FOps fuel fhalf = Some B ->
  ccwerrboundB FOps B = S754_finite false 4503599627370499 (-104) /\ ccwerrboundC FOps B = S754_finite false 5066549580791812 (-155) /\ resulterrbound FOps B = S754_finite false 6755399441055746 (-104).
Proof.
  intros fuel B H. unfold exactinit in H. destruct (init_loop FOps fuel fhalf true (one FOps) (one FOps) (one FOps)) as [[e s]|] eqn:E; [|discriminate].
  pose proof (init_same _ _ _ _ _ _ _ _ _ _ E init_53) as Q. injection Q as -> ->. apply some_eq in H. rewrite <- H. cbn [ccwerrboundB ccwerrboundC resulterrbound].
  repeat split; vm_compute; reflexivity.
Qed.
