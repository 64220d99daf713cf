(** Vector kernels (aliasing) and inner products. *)
From Coq Require Import String.
From Coq Require Import List Arith ZArith NArith Bool Lia Reals Lra Psatz.
From Verif Require Import Base AlgebraModel AlgebraSpec SumR.
Import ListNotations.

Section Kernels.
Variable o : Ops.
Notation T := (T o).

Definition kstep2 (f : T -> T -> res T) (r a b : nat) (i : nat) (st : store o) : res (store o) :=
  x <- get (st a) i ;; y <- get (st b) i ;; z <- f x y ;; l <- set (st r) i z ;; Ok (sset o st r l).

Definition kinv2 (g : T -> T -> T) (st0 : store o) (r a b : nat) (i : nat) (st : store o) : Prop :=
  (forall k, k <> r -> st k = st0 k) /\ length (st r) = length (st0 r) /\
  (forall j x y, j < i -> nth_error (st0 a) j = Some x -> nth_error (st0 b) j = Some y -> nth_error (st r) j = Some (g x y)) /\
  (forall j, i <= j -> nth_error (st r) j = nth_error (st0 r) j).

Lemma kread : forall g st0 r a b i st p, kinv2 g st0 r a b i st -> nth_error (st p) i = nth_error (st0 p) i.
Proof.
  intros g st0 r a b i st p [F [_ [_ U]]]. destruct (Nat.eq_dec p r) as [E|E].
  - subst; apply U; auto.
  - rewrite F; auto.
Qed.

Lemma kstep2_inv : forall f g st0 r a b i st x y,
  kinv2 g st0 r a b i st -> nth_error (st0 a) i = Some x -> nth_error (st0 b) i = Some y ->
  f x y = Ok (g x y) -> i < length (st0 r) ->
  exists st', kstep2 f r a b i st = Ok st' /\ kinv2 g st0 r a b (S i) st'.
Proof.
  intros f g st0 r a b i st x y I Ha Hb Hf Hr. unfold kstep2.
  pose proof (kread g st0 r a b i st a I) as Ra. pose proof (kread g st0 r a b i st b I) as Rb.
  destruct I as [F [L [D U]]].
  unfold get. rewrite Ra, Ha. cbn [bind]. rewrite Rb, Hb. cbn [bind]. rewrite Hf. cbn [bind].
  rewrite set_lt by lia. cbn [bind]. eexists; split; [reflexivity|].
  unfold kinv2, sset. rewrite Nat.eqb_refl. split; [|split; [|split]].
  - intros k Hk. apply Nat.eqb_neq in Hk; rewrite Hk. apply F. apply Nat.eqb_neq; auto.
  - rewrite upd_length; auto.
  - intros j x' y' Hj Hx Hy. destruct (Nat.eq_dec j i) as [E|E].
    + subst j. rewrite nth_error_upd_same by lia. congruence.
    + rewrite nth_error_upd_other by auto. apply D; auto; lia.
  - intros j Hj. rewrite nth_error_upd_other by lia. apply U; lia.
Qed.

Lemma kprefix2 : forall f g st0 r a b n,
  n <= length (st0 a) -> n <= length (st0 b) -> n <= length (st0 r) ->
  (forall i x y, i < n -> nth_error (st0 a) i = Some x -> nth_error (st0 b) i = Some y -> f x y = Ok (g x y)) ->
  exists st', forM_from n 0 (kstep2 f r a b) st0 = Ok st' /\ kinv2 g st0 r a b n st'.
Proof.
  intros f g st0 r a b n Ha Hb Hr Hf.
  destruct (forM_from_inv _ (kinv2 g st0 r a b) (kstep2 f r a b) n 0 st0) as [st' [E I]].
  - split; auto. split; auto. split; auto. intros; lia.
  - intros i st Hi I.
    destruct (nth_error (st0 a) i) as [x|] eqn:Ex; [|apply nth_error_None in Ex; lia].
    destruct (nth_error (st0 b) i) as [y|] eqn:Ey; [|apply nth_error_None in Ey; lia].
    eapply kstep2_inv; eauto; try lia. eapply Hf; eauto; lia.
  - exists st'; split; auto.
Qed.

(** two-operand kernels: functional behaviour for every aliasing pattern *)
Lemma kernel2_ok : forall f g st r a b,
  length (st a) <= length (st b) -> length (st a) <= length (st r) ->
  (forall i x y, i < length (st a) -> nth_error (st a) i = Some x -> nth_error (st b) i = Some y -> f x y = Ok (g x y)) ->
  exists st', kernel2 o f st r a b = Ok st' /\
    (forall k, k <> r -> st' k = st k) /\ length (st' r) = length (st r) /\
    (forall i x y, nth_error (st a) i = Some x -> nth_error (st b) i = Some y -> nth_error (st' r) i = Some (g x y)) /\
    (forall i, length (st a) <= i -> nth_error (st' r) i = nth_error (st r) i).
Proof.
  intros f g st r a b Hb Hr Hf.
  destruct (kprefix2 f g st r a b (length (st a))) as [st' [E [F [L [D U]]]]]; auto.
  exists st'; split; auto. split; auto. split; auto. split; auto.
  intros i x y Hx Hy. apply D; auto. apply nth_error_Some. congruence.
Qed.

Lemma kernel2_ub : forall f g st r a b,
  length (st b) < length (st a) \/ length (st r) < length (st a) ->
  (forall x y, f x y = Ok (g x y)) -> is_ub (kernel2 o f st r a b).
Proof.
  intros f g st r a b H Hf. change (kernel2 o f st r a b) with (forM_from (length (st a)) 0 (kstep2 f r a b) st).
  set (q := Nat.min (length (st b)) (length (st r))).
  assert (Q : q < length (st a)) by (unfold q; lia).
  replace (length (st a)) with (q + (length (st a) - q)) by lia.
  rewrite forM_from_app.
  destruct (kprefix2 f g st r a b q) as [st' [E I]]; try (unfold q; lia); auto.
  rewrite E. cbn [bind].
  destruct (length (st a) - q) as [|n] eqn:En; [lia|]. cbn [forM_from]. unfold kstep2 at 1.
  pose proof (kread g st r a b q st' a I) as Ra. pose proof (kread g st r a b q st' b I) as Rb.
  destruct I as [F [L _]].
  unfold get. cbn [Nat.add]. rewrite Ra.
  destruct (nth_error (st a) q) as [x|] eqn:Ex; [|apply nth_error_None in Ex; lia]. cbn [bind].
  rewrite Rb. destruct (nth_error (st b) q) as [y|] eqn:Ey; cbn [bind]; [|eexists; reflexivity].
  rewrite Hf. cbn [bind]. assert (q < length (st b)) by (apply nth_error_Some; congruence).
  destruct (set_ge _ (st' r) q (g x y)) as [s Es]; [rewrite L; unfold q in *; lia|]. rewrite Es. eexists; reflexivity.
Qed.

(** one-operand kernels are two-operand kernels whose second operand is the first *)
Lemma kernel1_2 : forall f st r a, kernel1 o f st r a = kernel2 o (fun x _ => f x) st r a a.
Proof.
  intros. unfold kernel1, kernel2, forM_up. generalize (length (st a)) as n. generalize 0 as p.
  intros p n; revert p st. induction n as [|n IH]; intros p st; cbn; auto.
  unfold get at 1 3 4. destruct (nth_error (st a) p) eqn:E; cbn [bind]; auto.
  unfold get; rewrite ?E; cbn [bind].
  destruct (f t); cbn [bind]; auto. destruct (set (st r) p a0); cbn [bind]; auto.
Qed.

Lemma kernel1_ok : forall f g st r a,
  length (st a) <= length (st r) ->
  (forall i x, i < length (st a) -> nth_error (st a) i = Some x -> f x = Ok (g x)) ->
  exists st', kernel1 o f st r a = Ok st' /\
    (forall k, k <> r -> st' k = st k) /\ length (st' r) = length (st r) /\
    (forall i x, nth_error (st a) i = Some x -> nth_error (st' r) i = Some (g x)) /\
    (forall i, length (st a) <= i -> nth_error (st' r) i = nth_error (st r) i).
Proof.
  intros f g st r a Hr Hf. rewrite kernel1_2.
  destruct (kernel2_ok (fun x _ => f x) (fun x _ => g x) st r a a) as [st' [E [F [L [D U]]]]]; auto.
  - intros i x y Hi Hx _. eapply Hf; eauto.
  - exists st'; split; auto. split; auto. split; auto. split; auto.
    intros i x Hx. eapply D; eauto.
Qed.

Lemma kernel1_ub : forall f g st r a, length (st r) < length (st a) -> (forall x, f x = Ok (g x)) -> is_ub (kernel1 o f st r a).
Proof. intros f g st r a H Hf. rewrite kernel1_2. eapply (kernel2_ub _ (fun x _ => g x)); auto. Qed.
End Kernels.

(** ** Inner products over the reals *)
Local Open Scope R_scope.


Lemma inner_product_ok : forall (a b : list R) acc, (length a <= length b)%nat ->
  inner_product ROps a b acc = Ok (acc + dotR a b).
Proof.
  induction a as [|x a IH]; intros b acc H.
  - destruct b; cbn; unfold dotR; cbn; f_equal; toR; ring.
  - destruct b as [|y b]; [cbn in H; lia|]. cbn [inner_product]. rewrite IH by (cbn in H; lia).
    f_equal. unfold dotR. cbn [length]. rewrite sumn_S_head. unfold vget. cbn [add mul ROps nth]. toR. ring.
Qed.

Lemma dot_ok : forall a b : list R, (length a <= length b)%nat -> dot ROps a b = Ok (dotR a b).
Proof. intros; unfold dot. rewrite inner_product_ok by auto. f_equal. cbn. toR. ring. Qed.

Lemma squareSum_ok : forall a : list R, squareSum ROps a = Ok (dotR a a).
Proof. intros; unfold squareSum. rewrite inner_product_ok by auto. f_equal. cbn. toR. ring. Qed.

Lemma dotR_nonneg : forall a, 0 <= dotR a a.
Proof. intros; apply sumn_nonneg; intros; nra. Qed.

Lemma norm_ok : forall a : list R, norm ROps a = Ok (sqrt (dotR a a)).
Proof. intros; unfold norm. rewrite squareSum_ok. cbn [bind]. cbn. apply Rsqrtr_ok, dotR_nonneg. Qed.

Lemma dotR_sym : forall a b, length a = length b -> dotR a b = dotR b a.
Proof. intros a b H; unfold dotR. rewrite H. apply sumn_ext; intros; ring. Qed.

Lemma dotR_zero : forall a, dotR a a = 0 -> forall i, (i < length a)%nat -> vget a i = 0.
Proof.
  intros a H i Hi. assert (Z := sumn_pos_zero (length a) (fun i => vget a i * vget a i) ltac:(intros; nra) H i Hi).
  cbn in Z. nra.
Qed.

(** linear combination of two vectors (math.cpp addScaled): zip2 *)
Lemma zip2_ok : forall (f : R -> R -> R) (a b : list R), (length a <= length b)%nat ->
  exists c : list R, zip2 ROps f a b = Ok c /\ length c = length a /\ forall i, (i < length a)%nat -> vget c i = f (vget a i) (vget b i).
Proof.
  induction a as [|x a IH]; intros b H.
  - exists []; destruct b; cbn; repeat split; auto; intros; lia.
  - destruct b as [|y b]; [cbn in H; lia|]. destruct (IH b) as [c [E [L V]]]; [cbn in H; lia|].
    exists (f x y :: c). cbn [zip2]. rewrite E. cbn [bind]. split; auto. split; [cbn; auto|].
    intros [|i] Hi; cbn; auto. apply V. cbn in Hi; lia.
Qed.

Lemma dotR_lin_r : forall a b c t, length b = length a -> length c = length a ->
  forall d, length d = length a -> (forall i, (i < length a)%nat -> vget d i = vget b i + t * vget c i) ->
  dotR a d = dotR a b + t * dotR a c.
Proof.
  intros a b c t Lb Lc d Ld H. unfold dotR. rewrite <- sumn_scal, <- sumn_plus. apply sumn_ext. intros i Hi. rewrite H by auto. ring.
Qed.

Lemma dotR_lin_l : forall a b c t, length b = length a -> length c = length a ->
  forall d, length d = length a -> (forall i, (i < length a)%nat -> vget d i = vget b i + t * vget c i) ->
  dotR d a = dotR b a + t * dotR c a.
Proof.
  intros a b c t Lb Lc d Ld H. unfold dotR. rewrite Ld, Lb, Lc. rewrite <- sumn_scal, <- sumn_plus. apply sumn_ext. intros i Hi. rewrite H by auto. ring.
Qed.

(** Cauchy-Schwarz *)
Lemma quad_disc : forall a b c, (forall t, 0 <= a + 2 * t * b + t * t * c) -> 0 <= c -> b * b <= a * c.
Proof.
  intros a b c H Hc. destruct (Req_dec c 0) as [E|E].
  - subst. assert (b = 0).
    { destruct (Req_dec b 0); auto. exfalso.
      pose proof (H (- (a + 1) / (2 * b))) as H1. assert (2 * (- (a + 1) / (2 * b)) * b = - (a + 1)) by (field; auto). nra. }
    subst. pose proof (H 0). nra.
  - pose proof (H (- b / c)) as H1.
    assert (a + 2 * (- b / c) * b + - b / c * (- b / c) * c = a - b * b / c) by (field; auto).
    rewrite H0 in H1. assert (0 < c) by lra.
    assert (b * b / c <= a) by lra. apply (Rmult_le_compat_r c) in H3; [|lra].
    replace (b * b / c * c) with (b * b) in H3 by (field; auto). lra.
Qed.

Lemma cauchy_schwarz_sq : forall a b, length a = length b -> dotR a b * dotR a b <= dotR a a * dotR b b.
Proof.
  intros a b L. apply quad_disc; [|apply dotR_nonneg].
  intros t.
  assert (E : dotR a a + 2 * t * dotR a b + t * t * dotR b b = sumn (length a) (fun i => (vget a i + t * vget b i) * (vget a i + t * vget b i))).
  { unfold dotR. rewrite <- L. rewrite <- !sumn_scal, <- !sumn_plus. apply sumn_ext; intros; ring. }
  rewrite E. apply sumn_nonneg. intros i Hi. apply Rle_0_sqr.
Qed.

Lemma cauchy_schwarz : forall a b, length a = length b -> Rabs (dotR a b) <= sqrt (dotR a a) * sqrt (dotR b b).
Proof.
  intros a b L. rewrite <- sqrt_mult by apply dotR_nonneg. rewrite <- sqrt_Rsqr_abs. apply sqrt_le_1_alt.
  unfold Rsqr. apply cauchy_schwarz_sq; auto.
Qed.

Lemma norm_triangle : forall a b c, length a = length b -> length c = length a ->
  (forall i, (i < length a)%nat -> vget c i = vget a i + vget b i) ->
  sqrt (dotR c c) <= sqrt (dotR a a) + sqrt (dotR b b).
Proof.
  intros a b c L Lc H.
  assert (E : dotR c c = dotR a a + 2 * dotR a b + dotR b b).
  { unfold dotR. rewrite Lc, <- L. rewrite <- !sumn_scal, <- !sumn_plus. apply sumn_ext. intros i Hi. rewrite H by auto. ring. }
  pose proof (cauchy_schwarz a b L) as CS. pose proof (Rle_abs (dotR a b)).
  pose proof (sqrt_pos (dotR a a)). pose proof (sqrt_pos (dotR b b)).
  apply Rsqr_incr_0_var; [|lra].
  rewrite Rsqr_sqrt by apply dotR_nonneg. unfold Rsqr.
  pose proof (sqrt_sqrt _ (dotR_nonneg a)). pose proof (sqrt_sqrt _ (dotR_nonneg b)).
  rewrite E. nra.
Qed.
