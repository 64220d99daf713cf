(** Facts about the binary64 arithmetic of the standard library, for all operands. *)
From Coq Require Import List Arith ZArith NArith Bool Lia.
From Coq Require Import Floats.SpecFloat.
From Verif Require Import Base GeometryModel SegmentModel FloatSpec.
Import ListNotations.

Section Any.
Variables prec emax : Z.
Local Notation fadd := (SFadd prec emax).
Local Notation fsub := (SFsub prec emax).
Local Notation fmul := (SFmul prec emax).

(** equal, or both zero *)
Definition same (x y : f64) : Prop := x = y \/ (exists s t, x = S754_zero s /\ y = S754_zero t).
Lemma same_refl : forall x, same x x.
Proof. left; auto. Qed.
Lemma same_sym : forall x y, same x y -> same y x.
Proof. intros x y [-> | [s [t [-> ->]]]]; [left; auto | right; eauto]. Qed.
Lemma same_trans : forall x y z, same x y -> same y z -> same x z.
Proof.
  intros x y z [-> | [s [t [-> ->]]]] H; auto.
  destruct H as [<- | [s' [t' [E ->]]]]; right; eauto.
Qed.

Lemma mul_comm : forall x y, fmul x y = fmul y x.
Proof.
  intros [sx|sx| |sx mx ex] [sy|sy| |sy my ey]; cbn; auto; try (rewrite xorb_comm; reflexivity).
  rewrite xorb_comm, Pos.mul_comm, Z.add_comm. reflexivity.
Qed.
Lemma add_comm : forall x y, fadd x y = fadd y x.
Proof.
  intros [sx|sx| |sx mx ex] [sy|sy| |sy my ey]; cbn; auto.
  - destruct sx, sy; reflexivity.
  - destruct sx, sy; reflexivity.
  - rewrite Z.min_comm, Z.add_comm. reflexivity.
Qed.

Lemma aux_opp : forall s m e l, SFopp (binary_round_aux prec emax s m e l) = binary_round_aux prec emax (negb s) m e l.
Proof.
  intros s m e l. unfold binary_round_aux. destruct (shr_fexp _ _ m e l) as [r e1].
  destruct (shr_fexp _ _ _ e1 loc_Exact) as [r2 e2]. destruct (shr_m r2); auto. destruct (Z.leb e2 _); auto.
Qed.
Lemma round_opp : forall s m e, SFopp (binary_round prec emax s m e) = binary_round prec emax (negb s) m e.
Proof. intros s m e. unfold binary_round. destruct (shl_align m e _). apply aux_opp. Qed.
Lemma opp_opp : forall x, SFopp (SFopp x) = x.
Proof. intros [s|s| |s m e]; cbn; auto; rewrite negb_involutive; auto. Qed.
Lemma normalize_opp : forall m e s, same (binary_normalize prec emax (- m) e s) (SFopp (binary_normalize prec emax m e s)).
Proof.
  intros [|m|m] e s; cbn.
  - right; eauto.
  - left. rewrite round_opp. reflexivity.
  - left. rewrite round_opp. reflexivity.
Qed.
Lemma sub_anti : forall x y, same (fsub x y) (SFopp (fsub y x)).
Proof.
  intros [sx|sx| |sx mx ex] [sy|sy| |sy my ey]; cbn; try (left; rewrite ?negb_involutive; reflexivity).
  - right. destruct sx, sy; cbn; eauto.
  - left. destruct sx, sy; reflexivity.
  - rewrite (Z.min_comm ey ex).
    set (a := cond_Zopp sx _). set (b := cond_Zopp sy _).
    replace (a - b)%Z with (- (b - a))%Z by ring. apply normalize_opp.
Qed.
Lemma mul_opp_l : forall x y, fmul (SFopp x) y = SFopp (fmul x y).
Proof.
  intros [sx|sx| |sx mx ex] [sy|sy| |sy my ey]; cbn; auto; try (rewrite ?aux_opp, negb_xorb_l; reflexivity).
Qed.
Lemma mul_opp_r : forall x y, fmul x (SFopp y) = SFopp (fmul x y).
Proof. intros. rewrite mul_comm, mul_opp_l, mul_comm. reflexivity. Qed.

Lemma opp_same : forall x y, same x y -> same (SFopp x) (SFopp y).
Proof. intros x y [-> | [s [t [-> ->]]]]; [left; auto | right; cbn; eauto]. Qed.
Lemma mul_same_l : forall x x' y, same x x' -> same (fmul x y) (fmul x' y).
Proof.
  intros x x' y [-> | [s [t [-> ->]]]]; [apply same_refl |].
  destruct y; cbn; try (left; reflexivity); right; eauto.
Qed.
Lemma mul_same : forall x x' y y', same x x' -> same y y' -> same (fmul x y) (fmul x' y').
Proof.
  intros x x' y y' H G. eapply same_trans. apply mul_same_l, H.
  rewrite (mul_comm x' y), (mul_comm x' y'). apply mul_same_l, G.
Qed.
Lemma sub_same : forall x x' y y', same x x' -> same y y' -> same (fsub x y) (fsub x' y').
Proof.
  assert (L : forall x x' y, same x x' -> same (fsub x y) (fsub x' y)).
  { intros x x' y [-> | [s [t [-> ->]]]]; [apply same_refl |].
    destruct y; cbn; try (left; reflexivity). right. destruct s, t, s0; cbn; eauto. }
  intros x x' y y' H G. eapply same_trans. apply L, H.
  eapply same_trans. apply sub_anti. eapply same_trans; [| apply same_sym, sub_anti].
  apply opp_same, L, G.
Qed.
Lemma add_same : forall x x' y y', same x x' -> same y y' -> same (fadd x y) (fadd x' y').
Proof.
  assert (L : forall x x' y, same x x' -> same (fadd x y) (fadd x' y)).
  { intros x x' y [-> | [s [t [-> ->]]]]; [apply same_refl |].
    destruct y; cbn; try (left; reflexivity). right. destruct s, t, s0; cbn; eauto. }
  intros x x' y y' H G. eapply same_trans. apply L, H.
  rewrite (add_comm x' y), (add_comm x' y'). apply L, G.
Qed.
Lemma sqrt_same : forall x y, same x y -> same (SFsqrt prec emax x) (SFsqrt prec emax y).
Proof. intros x y [-> | [s [t [-> ->]]]]; [left; auto | right; cbn; eauto]. Qed.
Lemma compare_same : forall x x' y y', same x x' -> same y y' -> SFcompare x y = SFcompare x' y'.
Proof.
  intros x x' y y' [-> | [s [t [-> ->]]]] [-> | [s' [t' [-> ->]]]]; auto; try (destruct x'; reflexivity); destruct y'; reflexivity.
Qed.
Lemma ltb_same : forall x x' y y', same x x' -> same y y' -> SFltb x y = SFltb x' y'.
Proof. intros. unfold SFltb. erewrite compare_same; eauto. Qed.
Lemma eqb_same : forall x x' y y', same x x' -> same y y' -> SFeqb x y = SFeqb x' y'.
Proof. intros. unfold SFeqb. erewrite compare_same; eauto. Qed.
Lemma abs_same : forall x y, same x y -> SFabs x = SFabs y.
Proof. intros x y [-> | [s [t [-> ->]]]]; auto. Qed.
Lemma abs_opp : forall x, SFabs (SFopp x) = SFabs x.
Proof. destruct x; auto. Qed.

(** x - x *)
Lemma sub_diag : forall x, fsub x x = if match x with S754_zero _ | S754_finite _ _ _ => true | _ => false end then S754_zero false else S754_nan.
Proof.
  intros [s|s| |s m e]; cbn; auto; try (destruct s; reflexivity).
  rewrite Z.sub_diag. reflexivity.
Qed.

(** ** signs *)
Lemma aux_sign : forall m e l, not_below_zero (binary_round_aux prec emax false m e l).
Proof.
  intros m e l. unfold binary_round_aux. destruct (shr_fexp _ _ m e l) as [r e1].
  destruct (shr_fexp _ _ _ e1 loc_Exact) as [r2 e2]. destruct (shr_m r2); cbn; auto. destruct (Z.leb e2 _); cbn; auto.
Qed.
Lemma mul_sign : forall x y, not_below_zero x -> not_below_zero y -> not_below_zero (fmul x y).
Proof.
  intros [sx|sx| |sx mx ex] [sy|sy| |sy my ey]; cbn [not_below_zero]; intros; subst; cbn [SFmul xorb not_below_zero]; auto.
  apply aux_sign.
Qed.
Lemma square_sign : forall x, not_below_zero (fmul x x).
Proof.
  intros [s|s| |s m e]; cbn [SFmul]; rewrite ?xorb_nilpotent; cbn; auto. apply aux_sign.
Qed.
Lemma normalize_sign : forall m e, (0 <= m)%Z -> not_below_zero (binary_normalize prec emax m e false).
Proof.
  intros [|m|m] e H; cbn; auto. 2: lia.
  unfold binary_round. destruct (shl_align m e _). apply aux_sign.
Qed.
Lemma add_sign : forall x y, not_below_zero x -> not_below_zero y -> not_below_zero (fadd x y).
Proof.
  intros [sx|sx| |sx mx ex] [sy|sy| |sy my ey]; cbn [not_below_zero]; intros; subst; cbn [SFadd Bool.eqb not_below_zero cond_Zopp]; auto.
  apply normalize_sign. lia.
Qed.
Lemma div_sign : forall x y, not_below_zero x -> not_below_zero y -> not_below_zero (SFdiv prec emax x y).
Proof.
  intros [sx|sx| |sx mx ex] [sy|sy| |sy my ey]; cbn [not_below_zero]; intros; subst; cbn [SFdiv xorb not_below_zero]; auto.
  destruct (SFdiv_core_binary _ _ _ _ _ _) as [[a b] c]. apply aux_sign.
Qed.
Lemma sqrt_sign : forall x, not_below_zero x -> not_below_zero (SFsqrt prec emax x).
Proof.
  intros [s|s| |s m e]; cbn [not_below_zero]; intros; subst; cbn [SFsqrt not_below_zero]; auto.
  destruct (SFsqrt_core_binary _ _ _ _) as [[a b] c]. apply aux_sign.
Qed.
Lemma sign_ltb : forall x s, not_below_zero x -> SFltb x (S754_zero s) = false.
Proof. intros [a|a| |a m e] s H; cbn in H; subst; reflexivity. Qed.
End Any.

(** ** order *)
Lemma pcomp_swap : forall a b, Pos.compare_cont Eq b a = CompOpp (Pos.compare_cont Eq a b).
Proof. intros. apply (Pos.compare_antisym a b). Qed.
Lemma compare_swap : forall x y, SFcompare y x = match SFcompare x y with Some c => Some (CompOpp c) | None => None end.
Proof.
  intros [sx|sx| |sx mx ex] [sy|sy| |sy my ey]; cbn; auto; try (destruct sx; reflexivity); try (destruct sy; reflexivity);
    try (destruct sx, sy; reflexivity).
  f_equal. destruct sx, sy; auto; rewrite (Z.compare_antisym ex ey); destruct (Z.compare ex ey); cbn; auto;
    rewrite pcomp_swap, ?CompOpp_involutive; auto.
Qed.
Lemma eqb_true : forall x y, SFeqb x y = true -> same x y.
Proof.
  intros x y H. unfold SFeqb in H. destruct (SFcompare x y) as [[]|] eqn:E; try discriminate. clear H.
  destruct x as [sx|sx| |sx mx ex], y as [sy|sy| |sy my ey]; cbn in E; try discriminate;
    try (destruct sx; discriminate); try (destruct sy; discriminate).
  - right; eauto.
  - left. destruct sx, sy; try discriminate; auto.
  - left. injection E as E.
    assert (ex = ey /\ mx = my /\ sx = sy) as [-> [-> ->]]; auto.
    destruct sx, sy; try discriminate; destruct (Z.compare ex ey) eqn:F; try discriminate; apply Z.compare_eq in F; subst.
    + destruct (Pos.compare_cont Eq mx my) eqn:G; try discriminate. apply (Pos.compare_eq mx my) in G. auto.
    + apply (Pos.compare_eq mx my) in E. auto.
Qed.
Lemma eqb_sym : forall x y, SFeqb x y = SFeqb y x.
Proof. intros. unfold SFeqb. rewrite (compare_swap x y). destruct (SFcompare x y) as [[]|]; auto. Qed.
Lemma ltb_opp0 : forall x s t, SFltb (S754_zero s) (SFopp x) = SFltb x (S754_zero t).
Proof. intros [a|a| |a m e] s t; cbn; auto; destruct a; reflexivity. Qed.
Lemma opp_ltb0 : forall x s t, SFltb (SFopp x) (S754_zero s) = SFltb (S754_zero t) x.
Proof. intros. rewrite <- (opp_opp x) at 2. rewrite (ltb_opp0 _ t s). reflexivity. Qed.
