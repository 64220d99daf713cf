(** Binary64: operations on numbers that are not too large do not overflow. *)
From Coq Require Import List Arith ZArith NArith Bool Lia Zpower.
From Coq Require Import Floats.SpecFloat.
From Verif Require Import Base GeometryModel SegmentModel FloatSpec Float_proofs.
Import ListNotations.
Local Open Scope Z_scope.

Lemma shr1_m : forall r, 0 <= shr_m r -> shr_m (shr_1 r) = shr_m r / 2.
Proof.
  intros [m a b] H. cbn in *. destruct m as [|p|p]; cbn; auto; [| lia].
  destruct p; cbn [shr_m]; auto.
  - rewrite Pos2Z.inj_xI. apply Z.div_unique with 1; lia.
  - rewrite Pos2Z.inj_xO. apply Z.div_unique with 0; lia.
Qed.
Lemma iter_m : forall p r, 0 <= shr_m r -> shr_m (iter_pos shr_1 p r) = shr_m r / 2 ^ Zpos p.
Proof.
  assert (N : forall p, 0 < 2 ^ Zpos p) by (intros; apply Z.pow_pos_nonneg; lia).
  assert (D : forall a b, 0 <= a -> 0 < b -> 0 <= a / b) by (intros; apply Z.div_pos; lia).
  induction p as [p IH | p IH |]; intros r H.
  - cbn [iter_pos]. assert (H1 : 0 <= shr_m (shr_1 r)) by (rewrite shr1_m by auto; apply D; lia).
    assert (H2 : 0 <= shr_m (iter_pos shr_1 p (shr_1 r))) by (rewrite IH by auto; apply D; auto).
    rewrite IH by auto. rewrite IH by auto. rewrite shr1_m by auto.
    pose proof (N p). rewrite Z.div_div by lia. rewrite Z.div_div by lia.
    replace (2 ^ Zpos p~1) with (2 * 2 ^ Zpos p * 2 ^ Zpos p).
    2: { rewrite (Pos2Z.inj_xI p). replace (2 * Zpos p + 1) with (1 + Zpos p + Zpos p) by lia.
         rewrite (Z.pow_add_r 2 (1 + Zpos p)), (Z.pow_add_r 2 1) by lia. reflexivity. }
    rewrite ?Z.mul_assoc. reflexivity.
  - cbn [iter_pos]. assert (H2 : 0 <= shr_m (iter_pos shr_1 p r)) by (rewrite IH by auto; apply D; auto).
    rewrite IH by auto. rewrite IH by auto. pose proof (N p). rewrite Z.div_div by lia.
    replace (2 ^ Zpos p~0) with (2 ^ Zpos p * 2 ^ Zpos p).
    2: { rewrite (Pos2Z.inj_xO p). replace (2 * Zpos p) with (Zpos p + Zpos p) by lia.
         rewrite (Z.pow_add_r 2 (Zpos p)) by lia. reflexivity. }
    rewrite ?Z.mul_assoc. reflexivity.
  - cbn [iter_pos]. rewrite shr1_m by auto. reflexivity.
Qed.
Lemma rec_m : forall m l, shr_m (shr_record_of_loc m l) = m.
Proof. intros m [|[]]; reflexivity. Qed.

Lemma digits_bound : forall p, 2 ^ (Zpos (digits2_pos p) - 1) <= Zpos p < 2 ^ Zpos (digits2_pos p).
Proof.
  assert (S2 : forall d, 2 ^ (Zpos (Pos.succ d) - 1) = 2 * 2 ^ (Zpos d - 1) /\ 2 ^ Zpos (Pos.succ d) = 2 * 2 ^ Zpos d).
  { intros d. rewrite Pos2Z.inj_succ. split; [rewrite <- Z.pow_succ_r by lia; f_equal; lia | apply Z.pow_succ_r; lia]. }
  induction p as [p IH | p IH |]; cbn [digits2_pos]; [| | split; [vm_compute; discriminate | reflexivity]];
    destruct (S2 (digits2_pos p)) as [-> ->]; revert IH; generalize (2 ^ (Zpos (digits2_pos p) - 1)) (2 ^ Zpos (digits2_pos p)); intros; lia.
Qed.
Lemma digits_le : forall p k, 0 <= k -> Zpos p < 2 ^ k -> Zpos (digits2_pos p) <= k.
Proof.
  intros p k K H. pose proof (digits_bound p) as [B _].
  assert (2 ^ (Zpos (digits2_pos p) - 1) < 2 ^ k) by lia.
  apply Z.pow_lt_mono_r_iff in H0; lia.
Qed.

(** what one shift does to a bound *)
Lemma shift_bound : forall m e l n r e1, 0 <= m -> -1000 <= n <= 960 -> e <= n -> m < 2 ^ (n - e) ->
  shr_fexp 53 1024 m e l = (r, e1) -> e <= e1 /\ e1 <= Z.max n e /\ 0 <= shr_m r < 2 ^ (n - e1).
Proof.
  intros m e l n r e1 M N E B H. unfold shr_fexp, shr in H.
  assert (F : fexp 53 1024 (Zdigits2 m + e) <= n).
  { unfold fexp, emin. destruct m as [|p|p]; cbn [Zdigits2]; try lia.
    pose proof (digits_le p (n - e)) as D. lia. }
  destruct (fexp 53 1024 (Zdigits2 m + e) - e) as [|k|k] eqn:K; injection H as <- <-.
  - rewrite rec_m. lia.
  - rewrite iter_m by (rewrite rec_m; auto). rewrite rec_m.
    split; [lia|]. split; [lia|]. split; [apply Z.div_pos; try lia; apply Z.pow_pos_nonneg; lia|].
    apply Z.div_lt_upper_bound; [apply Z.pow_pos_nonneg; lia|].
    rewrite <- Z.pow_add_r by lia. replace (Zpos k + (n - (e + Zpos k))) with (n - e) by lia. auto.
  - rewrite rec_m. lia.
Qed.
Lemma rne_bound : forall m l k, 0 <= k -> 0 <= m < 2 ^ k -> 0 <= round_nearest_even m l < 2 ^ (k + 1).
Proof.
  intros m l k K H. replace (k + 1) with (1 + k) by lia. rewrite Z.pow_add_r by lia. change (2 ^ 1) with 2.
  destruct l as [|[]]; cbn [round_nearest_even]; try lia. destruct (Z.even m); lia.
Qed.
Lemma below_mono : forall n k x, below n x -> n <= k -> below k x.
Proof.
  intros n k [s|s| |s m e] H L; cbn in *; auto. destruct H as [H1 H2]. split; [lia|].
  eapply Z.lt_le_trans; [apply H2|]. apply Z.pow_le_mono_r; lia.
Qed.
Lemma aux_below : forall s m e l n, 0 <= m -> -1000 <= n <= 900 -> e <= n -> m < 2 ^ (n - e) ->
  below (n + 1) (binary_round_aux 53 1024 s m e l).
Proof.
  intros s m e l n M N E B. unfold binary_round_aux.
  destruct (shr_fexp 53 1024 m e l) as [r e1] eqn:R1.
  destruct (shift_bound m e l n r e1) as [A1 [A2 A3]]; auto; try lia.
  set (k := round_nearest_even _ _).
  assert (K : 0 <= k < 2 ^ (n - e1 + 1)) by (apply rne_bound; lia).
  destruct (shr_fexp 53 1024 k e1 loc_Exact) as [r2 e2] eqn:R2.
  destruct (shift_bound k e1 loc_Exact (n + 1) r2 e2) as [B1 [B2 B3]]; auto; try lia.
  { replace (n + 1 - e1) with (n - e1 + 1) by lia. lia. }
  destruct (shr_m r2) as [|p|p]; cbn [below]; auto; [| lia].
  destruct (Z.leb_spec e2 (1024 - 53)); cbn [below]; lia.
Qed.
Lemma align_below : forall m e e' n, e <= n -> Zpos m < 2 ^ (n - e) ->
  snd (shl_align m e e') <= n /\ Zpos (fst (shl_align m e e')) < 2 ^ (n - snd (shl_align m e e')).
Proof.
  intros m e e' n E B. unfold shl_align. destruct (e' - e) as [|k|k] eqn:K; cbn [fst snd]; auto.
  split; [lia|]. rewrite shift_pos_correct. rewrite Z.pow_pos_fold.
  replace (n - e') with (Zpos k + (n - e)) by lia. rewrite Z.pow_add_r by lia.
  apply Z.mul_lt_mono_pos_l; auto. apply Z.pow_pos_nonneg; lia.
Qed.
Lemma align_min : forall m e e', e' <= e -> snd (shl_align m e e') = e'.
Proof. intros m e e' H. unfold shl_align. destruct (e' - e) eqn:K; cbn; lia. Qed.
Lemma normalize_below : forall m e s n, -1000 <= n <= 900 -> e <= n -> Z.abs m < 2 ^ (n - e) ->
  below (n + 1) (binary_normalize 53 1024 m e s).
Proof.
  intros [|m|m] e s n N E B; cbn [binary_normalize]; [cbn; auto | |];
    unfold binary_round; destruct (shl_align m e _) as [a b] eqn:S;
    pose proof (align_below m e (fexp 53 1024 (Zpos (digits2_pos m) + e)) n E) as C; rewrite S in C; cbn [fst snd] in C;
    destruct C as [C1 C2]; try lia; apply aux_below; auto; lia.
Qed.
Lemma mul_below : forall n k x y, below n x -> below k y -> -1000 <= n + k <= 900 -> below (n + k + 1) (SFmul 53 1024 x y).
Proof.
  intros n k [sx|sx| |sx mx ex] [sy|sy| |sy my ey]; cbn [below SFmul]; auto; try tauto. intros [H1 H2] [G1 G2] N.
  apply aux_below; try lia. rewrite Pos2Z.inj_mul. replace (n + k - (ex + ey)) with ((n - ex) + (k - ey)) by lia.
  rewrite Z.pow_add_r by lia. apply Z.mul_lt_mono_nonneg; lia.
Qed.
Lemma cond_abs : forall s m, Z.abs (cond_Zopp s m) = Z.abs m.
Proof. intros [] m; cbn; lia. Qed.
Lemma sub_below : forall n x y, below n x -> below n y -> -900 <= n <= 890 -> below (n + 2) (SFsub 53 1024 x y).
Proof.
  intros n x y Hx Hy N.
  assert (B0 : forall x, below n x -> below (n + 2) x) by (intros; eapply below_mono; eauto; lia).
  destruct x as [sx|sx| |sx mx ex], y as [sy|sy| |sy my ey]; cbn [below SFsub] in *; auto; try tauto.
  - destruct (Bool.eqb sx (negb sy)); cbn; auto.
  - apply (B0 (S754_finite (negb sy) my ey)). auto.
  - apply (B0 (S754_finite sx mx ex)). auto.
  - destruct Hx as [H1 H2], Hy as [G1 G2]. replace (n + 2) with (n + 1 + 1) by lia.
    pose proof (align_below mx ex (Z.min ex ey) n H1 H2) as [_ P]. pose proof (align_below my ey (Z.min ex ey) n G1 G2) as [_ Q].
    rewrite align_min in P by lia. rewrite align_min in Q by lia.
    apply normalize_below; try lia.
    replace (n + 1 - Z.min ex ey) with (1 + (n - Z.min ex ey)) by lia. rewrite Z.pow_add_r by lia. change (2 ^ 1) with 2.
    pose proof (cond_abs sx (Zpos (fst (shl_align mx ex (Z.min ex ey))))).
    pose proof (cond_abs sy (Zpos (fst (shl_align my ey (Z.min ex ey))))). lia.
Qed.
Lemma below_not_nan : forall n x, below n x -> f64_is_nan x = false.
Proof. intros n [] H; cbn in *; tauto. Qed.
Lemma add_below : forall n x y, below n x -> below n y -> -900 <= n <= 890 -> below (n + 2) (SFadd 53 1024 x y).
Proof.
  intros n x y Hx Hy N.
  assert (B0 : forall x, below n x -> below (n + 2) x) by (intros; eapply below_mono; eauto; lia).
  destruct x as [sx|sx| |sx mx ex], y as [sy|sy| |sy my ey]; cbn [below SFadd] in *; auto; try tauto.
  - destruct (Bool.eqb sx sy); cbn; auto.
  - apply (B0 (S754_finite sy my ey)). auto.
  - apply (B0 (S754_finite sx mx ex)). auto.
  - destruct Hx as [H1 H2], Hy as [G1 G2]. replace (n + 2) with (n + 1 + 1) by lia.
    pose proof (align_below mx ex (Z.min ex ey) n H1 H2) as [_ P]. pose proof (align_below my ey (Z.min ex ey) n G1 G2) as [_ Q].
    rewrite align_min in P by lia. rewrite align_min in Q by lia.
    apply normalize_below; try lia.
    replace (n + 1 - Z.min ex ey) with (1 + (n - Z.min ex ey)) by lia. rewrite Z.pow_add_r by lia. change (2 ^ 1) with 2.
    pose proof (cond_abs sx (Zpos (fst (shl_align mx ex (Z.min ex ey))))).
    pose proof (cond_abs sy (Zpos (fst (shl_align my ey (Z.min ex ey))))). lia.
Qed.
Lemma sqrt_below : forall k x, below (2 * k) x -> not_below_zero x -> 0 <= k <= 890 -> below (k + 1) (SFsqrt 53 1024 x).
Proof.
  intros k [s|s| |s m e] H S K; cbn [below not_below_zero SFsqrt] in *; auto; try tauto. subst s. destruct H as [H1 H2].
  unfold SFsqrt_core_binary. cbn [Zdigits2].
  set (e' := Z.min _ (Z.div2 e)). assert (E1 : e' <= Z.div2 e) by (unfold e'; lia).
  assert (E2 : 2 * Z.div2 e <= e) by (pose proof (Z.div2_odd e); destruct (Z.odd e); cbn [Z.b2z] in *; lia).
  set (m' := match e - 2 * e' with 0 => Zpos m | Zpos p => Z.shiftl (Zpos m) (e - 2 * e') | Zneg _ => 0 end).
  assert (M : 0 <= m' < 2 ^ (2 * k - 2 * e')).
  { replace (2 * k - 2 * e') with ((2 * k - e) + (e - 2 * e')) by lia. rewrite Z.pow_add_r by lia.
    unfold m'. destruct (e - 2 * e') as [|q|q] eqn:Q; [change (2 ^ 0) with 1; lia | | lia].
    rewrite Z.shiftl_mul_pow2 by lia. assert (0 < 2 ^ Zpos q) by (apply Z.pow_pos_nonneg; lia). split; [lia|].
    apply Z.mul_lt_mono_pos_r; auto. }
  pose proof (Z.sqrtrem_spec m' (proj1 M)) as SP. destruct (Z.sqrtrem m') as [q r]. destruct SP as [SQ R].
  assert (q < 2 ^ (k - e')).
  { destruct (Z.lt_ge_cases q (2 ^ (k - e'))) as [L|L]; auto. exfalso.
    replace (2 * k - 2 * e') with ((k - e') + (k - e')) in M by lia. rewrite Z.pow_add_r in M by lia.
    assert (2 ^ (k - e') * 2 ^ (k - e') <= q * q) by (apply Z.mul_le_mono_nonneg; auto; apply Z.pow_nonneg; lia). lia. }
  assert (0 <= q). { destruct (Z.lt_ge_cases q 0); auto. exfalso. lia. }
  apply aux_below; auto; lia.
Qed.
Lemma below_finite : forall n x, below n x -> finite x.
Proof. intros n [] H; cbn in *; tauto. Qed.
