(** refineMeshAroundMagnets on a rectangular magnet (C82). *)
From Coq Require Import String.
From Coq Require Import List Arith ZArith NArith Bool Lia.
From Coq Require Import Reals Lra.
From Verif Require Import Base SumR AlgebraModel SolversSpec GeometryModel GeometrySpec Geometry_proofs Circle_proofs Polygon_proofs Segment_proofs.
From Verif Require Import DrawingModel DrawingSpec Drawing_proofs DrawingR_proofs DrawingR2_proofs MeshSpec SetupSpec RefineSpec Refine2_proofs.
Import ListNotations.
Local Open Scope R_scope.

Lemma sieve_two : forall ok pts c1 c2 cs pts' q, sieve ok pts (c1 :: c2 :: cs) pts' -> q = c1 \/ q = c2 -> ok pts q -> (q = c2 -> ok (pts ++ [c1]) q) -> In q pts'.
Proof.
  intros ok pts c1 c2 cs pts' q Sv C O1 O2.
  assert (G : forall ps c x y, sieve ok ps c y -> In x ps -> In x y).
  { intros ps c x y K Ix. destruct (sieve_grows _ _ _ _ K) as [l ->]. apply in_or_app. auto. }
  assert (L : forall (l : list pt) x, In x (l ++ [x])) by (intros; apply in_or_app; right; left; auto).
  inversion Sv as [|a1 a2 a3 a4 K1 S1|a1 a2 a3 a4 K1 S1]; subst; clear Sv; inversion S1 as [|b1 b2 b3 b4 K2 S2|b1 b2 b3 b4 K2 S2]; subst; clear S1; destruct C as [->| ->].
  - eapply G; [eassumption|]. apply in_or_app. left. auto.
  - eapply G; [eassumption|]. auto.
  - eapply G; [eassumption|]. auto.
  - exfalso. auto.
  - contradiction.
  - eapply G; [eassumption|]. auto.
  - contradiction.
  - contradiction.
Qed.

Lemma some_eq : forall X (a b : X), Some a = Some b -> a = b.
Proof. intros X a b E. injection E. auto. Qed.
Section Rect.
Variable lm : libm ROps.
Variable A : Type.
Variable mag : A -> pt.
Hypothesis conv : converts lm.
Variables x0 y0 x1 y1 : R.
Variable v : A.
Variable seed : pt.
Hypothesis Hx : x0 <> x1.
Hypothesis Hy : y0 <> y1.
Hypothesis Hs : poly_contains ROps (rect x0 y0 x1 y1) seed = true.
Hypothesis Hm : ~ near (mag v) (P 0 0).
Hypothesis Hw : 10 * Rabs (x1 - x0) < 2 ^ 32 * Rabs (y1 - y0).
Hypothesis Hb : Rabs (x1 - x0) <= dbl_max ROps.
Notation d := (one_rect v seed x0 y0 x1 y1).
Notation g := (rect x0 y0 x1 y1).
Notation w := (Rabs (x1 - x0)).
Notation h := (Rabs (y1 - y0)).

Lemma w_pos : 0 < w. Proof. apply Rabs_pos_lt. lra. Qed.
Lemma h_pos : 0 < h. Proof. apply Rabs_pos_lt. lra. Qed.
Lemma dist_x : forall p q : pt, Rabs (px p - px q) <= dist p q.
Proof.
  intros p q. apply Rsqr_incr_0; [|apply Rabs_pos|apply dist_nonneg]. rewrite <- Rsqr_abs. unfold Rsqr at 2. rewrite dist_sq. unfold Rsqr. pose proof (Rle_0_sqr (py p - py q)). unfold Rsqr in *. lra.
Qed.
Lemma dist_y : forall p q : pt, Rabs (py p - py q) <= dist p q.
Proof.
  intros p q. apply Rsqr_incr_0; [|apply Rabs_pos|apply dist_nonneg]. rewrite <- Rsqr_abs. unfold Rsqr at 2. rewrite dist_sq. unfold Rsqr. pose proof (Rle_0_sqr (px p - px q)). unfold Rsqr in *. lra.
Qed.
Lemma dist_horizontal : forall a b y, dist (P a y) (P b y) = Rabs (b - a).
Proof. intros. apply Rsqr_inj; [apply dist_nonneg|apply Rabs_pos|]. rewrite <- Rsqr_abs. unfold Rsqr. rewrite dist_sq, ?px_P, ?py_P. ring. Qed.
Lemma dist_vertical : forall x a b, dist (P x a) (P x b) = Rabs (b - a).
Proof. intros. apply Rsqr_inj; [apply dist_nonneg|apply Rabs_pos|]. rewrite <- Rsqr_abs. unfold Rsqr. rewrite dist_sq, ?px_P, ?py_P. ring. Qed.
Lemma rect_wf : well_formed d.
Proof.
  split; [|split].
  - intros s H. cbn in H. destruct H as [<-|[<-|[<-|[<-|[]]]]]; cbn; lia.
  - intros i j s t Hi Hj [E|E]; destruct i as [|[|[|[|i]]]]; cbn in Hi; try (injection Hi as <-); try (destruct i; discriminate);
      destruct j as [|[|[|[|j]]]]; cbn in Hj; try (injection Hj as <-); try (destruct j; discriminate); cbn in E; auto; destruct E; discriminate.
  - intros r [<-|[]]. cbn. lia.
Qed.
Lemma rect_nd : nondegenerate d.
Proof.
  intros s a b H Ha Hb' E. pose proof (f_equal px E) as X. pose proof (f_equal py E) as Y. clear E. cbn in H.
  destruct H as [<-|[<-|[<-|[<-|[]]]]]; cbn [one_rect points rect nth_error fst snd] in Ha, Hb'; injection Ha as <-; injection Hb' as <-; rewrite ?px_P, ?py_P in *; lra.
Qed.
Lemma rect_magnet : magnet mag d g.
Proof.
  exists O, v. split; auto. split; auto. split.
  - split; [left; auto|]. exists (seed, O). split; [left; auto|auto].
  - intros k [[<-|[]] _] D. exfalso. eapply not_differ; eauto.
Qed.
Lemma rect_magnet_only : forall k, magnet mag d k -> k = g.
Proof. intros k [i [u [_ [_ [[[<-|[]] _] _]]]]]. auto. Qed.
Lemma rect_eps : exists eps : R, getCurrentEpsilon ROps A d = Ok eps /\ 0 < eps /\ eps <= w /\ eps <= h /\ 10 * w < 2 ^ 32 * eps.
Proof.
  pose proof w_pos as Wp. pose proof h_pos as Hp.
  destruct (epsilon_R A d rect_wf rect_nd) as [eps [E [_ [L K]]]]. exists eps. split; auto.
  assert (Lw : eps <= w).
  { apply (L (P x0 y0) (P x1 y0) (P x1 y1)); [exists O, (1, 2)%nat; cbn; repeat split; auto|]. split.
    - exists (P x1 y0). split; [exists 0; split; [lra|]; unfold along; apply pt_ext; rewrite ?px_P, ?py_P; ring|apply dist_horizontal].
    - intros q [t [Ht ->]]. eapply Rle_trans; [|apply dist_x]. unfold along. rewrite !px_P. rewrite Rabs_minus_sym. right. f_equal. ring. }
  assert (Lh : eps <= h).
  { apply (L (P x0 y0) (P x1 y1) (P x0 y1)); [exists O, (2, 3)%nat; cbn; repeat split; auto|]. split.
    - exists (P x0 y1). split; [exists 1; split; [lra|]; unfold along; apply pt_ext; rewrite ?px_P, ?py_P; ring|apply dist_vertical].
    - intros q [t [Ht ->]]. eapply Rle_trans; [|apply dist_y]. unfold along. rewrite !py_P. rewrite Rabs_minus_sym. right. f_equal. ring. }
  assert (Lo : w <= eps \/ h <= eps).
  { destruct K as [->|[p [a [b [AP [[q [[t [Ht ->]] <-]] _]]]]]]; [left; auto|].
    destruct AP as [i [s [Hi [Hs' [Ha [Hb' [N1 N2]]]]]]]. cbn in Hs'.
    assert (Li : (i < 4)%nat) by (change 4%nat with (length (points d)); apply nth_error_Some; congruence).
    assert (B : forall p q : pt, Rabs (px p - px q) = w \/ Rabs (py p - py q) = h -> w <= dist p q \/ h <= dist p q).
    { intros p' q' [<-|<-]; [left; apply dist_x|right; apply dist_y]. }
    destruct i as [|[|[|[|i]]]]; [..|lia]; cbn in Hi; injection Hi as <-; destruct Hs' as [<-|[<-|[<-|[<-|[]]]]]; cbn in N1, N2; try congruence; cbn in Ha, Hb'; injection Ha as <-; injection Hb' as <-;
      apply B; unfold along; rewrite ?px_P, ?py_P;
      first [left; f_equal; ring | left; rewrite Rabs_minus_sym; f_equal; ring | right; f_equal; ring | right; rewrite Rabs_minus_sym; f_equal; ring]. }
  split; [destruct Lo; lra|]. split; auto. split; auto. destruct Lo as [Lo|Lo].
  - assert (10 * w < 2 ^ 32 * w); [|nra]. assert (10 < 2 ^ 32) by (change 10 with (IZR 10); rewrite pow_IZR; apply IZR_lt; reflexivity). nra.
  - nra.
Qed.
Lemma unit_sq : forall u : R, u <> 0 -> (u / Rabs u) * (u / Rabs u) = 1.
Proof. intros u Hu. unfold Rabs. destruct (Rcase_abs u); field; lra. Qed.
Lemma stops : forall d' r, refineMeshAroundMagnets ROps lm A mag d = (d', r) -> is_nonfin r.
Proof.
  intros d' r H. pose proof w_pos as Wp. pose proof h_pos as Hp.
  destruct (refine_magnets_R lm A mag conv d d' r rect_wf rect_nd H) as [gs [Hg [es1 [es2 [pts [E [F [_ Stk]]]]]]]].
  destruct gs as [|k gs]; [exfalso; apply (proj2 (Hg g)); apply rect_magnet|].
  assert (k = g) by (apply rect_magnet_only, Hg; left; auto). subst k.
  destruct rect_eps as [eps [Ee [Pe [Lw [Lh Lr]]]]].
  assert (WP : with_points ROps A d (points d) = d) by reflexivity.
  set (e0 := (g, (P x0 y0, P x1 y0))) in *. set (e1 := (g, (P x1 y0, P x1 y1))).
  assert (E' : exists rest, es1 ++ es2 = e0 :: e1 :: rest).
  { rewrite <- E. unfold all_edges. cbn [flat_map rect edges combine app map]. fold g. eexists. reflexivity. }
  clear E. destruct E' as [rest E].
  assert (NOW : w / (eps / 10) < 2 ^ 32). { apply (Rmult_lt_reg_r (eps / 10)); [lra|]. replace (w / (eps / 10) * (eps / 10)) with w by (field; lra). lra. }
  destruct es1 as [|f es1].
  { cbn in E. subst es2. inversion F; subst. destruct Stk as [eps' [E1 Stk]]. rewrite WP, Ee in E1. injection E1 as <-. destruct Stk as [[Stk _]|[_ [Stk _]]]; [lra|].
    cbn [e0 fst snd] in Stk. rewrite dist_horizontal in Stk. lra. }
  cbn in E. injection E as -> E. inversion F as [|g' a b es p0 pts1 p2 F1 F2]; subst. clear F.
  (* the corner candidate is taken *)
  set (q := P x0 (y0 + 11 / 100 * eps * ((y1 - y0) / h))).
  set (t := 11 / 100 * eps / h).
  assert (T : 0 <= t <= 1).
  { unfold t. split; [apply Rmult_le_pos; [lra|apply Rlt_le, Rinv_0_lt_compat; lra]|]. apply (Rmult_le_reg_r h); auto. replace (11 / 100 * eps / h * h) with (11 / 100 * eps) by (field; lra). lra. }
  assert (Qa : q = along (P x0 y0) (P x0 y1) t) by (apply pt_ext; unfold q, along, t; rewrite ?px_P, ?py_P; [ring|field; lra]).
  assert (On : on_segment q (P x0 y1) (P x0 y0)) by (exists (1 - t); split; [lra|]; rewrite Qa; unfold along; apply pt_ext; rewrite ?px_P, ?py_P; ring).
  assert (D0 : dist q (P x0 y0) = 11 / 100 * eps).
  { unfold q. rewrite dist_vertical. replace (y0 - (y0 + 11 / 100 * eps * ((y1 - y0) / h))) with (- (11 / 100 * eps * ((y1 - y0) / h))) by ring. rewrite Rabs_Ropp, Rabs_mult, (Rabs_right (11 / 100 * eps)) by lra.
    replace (Rabs ((y1 - y0) / h)) with 1; [ring|]. unfold Rdiv. rewrite Rabs_mult, (Rabs_right (/ h)); [field; lra|]. apply Rle_ge, Rlt_le, Rinv_0_lt_compat; auto. }
  assert (D3 : 89 / 100 * eps <= dist q (P x0 y1)).
  { rewrite Qa. unfold along. rewrite ?px_P, ?py_P. replace (x0 + t * (x0 - x0)) with x0 by ring. rewrite dist_vertical. replace (y1 - (y0 + t * (y1 - y0))) with ((1 - t) * (y1 - y0)) by ring.
    rewrite Rabs_mult, (Rabs_right (1 - t)) by lra. replace ((1 - t) * h) with (h - 11 / 100 * eps) by (unfold t; field; lra). lra. }
  assert (D1 : forall y, eps <= dist q (P x1 y)).
  { intros y. eapply Rle_trans; [|apply dist_x]. unfold q. rewrite !px_P, Rabs_minus_sym. auto. }
  assert (Cl : forall x, In x g -> eps / 10 <= dist q x).
  { intros x [<-|[<-|[<-|[<-|[]]]]]; [rewrite D0; lra|specialize (D1 y0); lra|specialize (D1 y1); lra|lra]. }
  assert (OK : inside_clear g (polygons d) (eps / 10) (points d) q).
  { split.
    - apply contains_boundary. exists (P x0 y1), (P x0 y0). split; auto. cbn. auto 6.
    - intros x Hx'. apply Cl. cbn [one_rect polygons points concat] in Hx'. rewrite app_nil_r in Hx'. apply in_app_or in Hx'. tauto. }
  assert (Qin : In q pts1).
  { destruct F1 as [eps' [n [E1 [P1 [B1 [_ SV]]]]]]. rewrite WP, Ee in E1. injection E1 as <-. rewrite dist_horizontal in B1.
    assert (Hn : (1 <= n)%nat).
    { destruct n; [|lia]. exfalso. cbn [INR] in B1. assert (1 <= w / (eps / 10)); [|lra]. apply (Rmult_le_reg_r (eps / 10)); [lra|]. replace (w / (eps / 10) * (eps / 10)) with w by (field; lra). lra. }
    destruct n as [|n]; [lia|]. unfold places in SV. cbn [seq flat_map app] in SV. cbn [INR] in SV.
    set (c1 := offset (P x0 y0) (P x1 y0) (0 / INR (S n)) (11 / 100 * eps)) in *. set (c2 := offset (P x0 y0) (P x1 y0) (0 / INR (S n)) (- (11 / 100 * eps))) in *.
    assert (Z : 0 / INR (S n) = 0) by (unfold Rdiv; ring).
    assert (C12 : q = c1 \/ q = c2).
    { pose proof (unit_sq (x1 - x0) ltac:(lra)) as U1. pose proof (unit_sq (y1 - y0) ltac:(lra)) as U2. set (u := (x1 - x0) / w) in *. set (z := (y1 - y0) / h) in *.
      assert (UZ : (u - z) * (u + z) = 0) by (replace ((u - z) * (u + z)) with (u * u - z * z) by ring; lra). apply Rmult_integral in UZ.
      unfold c1, c2, offset. rewrite dist_horizontal, ?px_P, ?py_P, Z. fold u. destruct UZ as [UZ|UZ]; [left|right]; apply pt_ext; unfold q; rewrite ?px_P, ?py_P; try (unfold Rdiv; ring); fold z.
      - replace z with u by lra. ring.
      - replace z with (- u) by lra. ring. }
    assert (DC : eps / 10 <= dist c2 c1). { rewrite dist_sym. unfold c1, c2. rewrite offset_dist; [lra| |lra]. intros K. apply (f_equal px) in K. rewrite !px_P in K. auto. }
    eapply (sieve_two _ _ c1 c2); eauto. intros C. destruct OK as [OK1 OK2]. split; auto. intros x Hx'. rewrite app_assoc in Hx'. apply in_app_or in Hx'. destruct Hx' as [Hx'|[<-|[]]]; auto. rewrite C. exact DC. }
  (* so the feature size is now zero *)
  assert (GR : exists l, pts1 = points d ++ l).
  { destruct F1 as [eps' [n [_ [_ [_ [_ SV]]]]]]. eapply sieve_grows; eauto. }
  destruct GR as [l El].
  assert (Z : getCurrentEpsilon ROps A (with_points ROps A d pts1) = Ok (0 : R)).
  { subst pts1. destruct (epsilon_R A _ (wf_wp A d l rect_wf) (nd_wp A d l rect_wf rect_nd)) as [m [Em [_ [L K]]]]. rewrite Em. f_equal.
    assert (0 <= m). { destruct K as [->|[p [a [b [_ K]]]]]; [pose proof dbl_max_pos; lra|eapply segdist_nonneg; eauto]. }
    assert (m <= 0); [|lra]. apply (L q (P x0 y1) (P x0 y0)).
    - apply In_nth_error in Qin. destruct Qin as [i Hi]. exists i, (3, 0)%nat. split; auto. split; [cbn; auto 6|]. split; [reflexivity|]. split; [reflexivity|]. cbn [fst snd].
      split; intros <-.
      + assert (X : P x0 y1 = q) by (apply some_eq; exact Hi). rewrite <- X, dist_self in D3. lra.
      + assert (X : P x0 y0 = q) by (apply some_eq; exact Hi). rewrite <- X, dist_self in D0. lra.
    - split; [exists q; split; auto; apply dist_self|]. intros x _. apply dist_nonneg. }
  destruct es1 as [|f es1].
  - cbn in E. subst es2. inversion F2; subst. destruct Stk as [eps' [E1 Stk]]. rewrite Z in E1. injection E1 as <-. destruct Stk as [[_ Stk]|[Stk _]]; [exact Stk|lra].
  - inversion F2 as [|g' a b es p0 pts2 p2 [eps' [n [E1 [P1 _]]]] _]; subst. rewrite Z in E1. injection E1 as <-. lra.
Qed.
End Rect.
