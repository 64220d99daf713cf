(** The example programs, in exact arithmetic. *)
From Coq Require Import String.
From Coq Require Import List Arith ZArith NArith Bool Lia.
From Coq Require Import Reals Lra.
From Verif Require Import Base SumR GeometryModel GeometrySpec Geometry_proofs DrawingModel DrawingSpec DrawingR_proofs PlaneSpec Plane_proofs ExampleModel ExampleSpec.
Import ListNotations.
Local Open Scope R_scope.
Ltac toR := change (T ROps) with R in *.

(** ** The design optimisation *)
Section Design.
Variable mat : Type.
Variables iron copper : mat.
Variables w h i : R.
Definition design : list (call ROps (prop ROps mat)) :=
  [ DrawRectangle (P (i / 2) 0) (P ((i + w) / 2) h);
    DrawRectangle (P (- (i / 2)) 0) (P (- ((i + w) / 2)) h);
    DrawRectangle (P (i / 2) 0) (P (- (i / 2)) h);
    DrawRectangle (P (- (1 / 2)) (-1)) (P (1 / 2) (-2));
    DrawRegion (P 0 (h / 2)) (0, P 0 0, iron);
    DrawRegion (P (i / 2 + w / 4) (h / 2)) (1000 / (w * h * 2), P 0 0, copper);
    DrawRegion (P (- (i / 2) - w / 4) (h / 2)) (- (1000 / (w * h * 2)), P 0 0, copper);
    DrawRegion (P 0 (-3 / 2)) (0, P 0 0, iron) ].
Lemma div_ok : forall a b : R, b <> 0 -> div ROps a b = Ok (a / b).
Proof. intros. apply Rdivr_ok; auto. Qed.
Lemma design_run : w * h <> 0 -> design_calls ROps mat iron copper w h i = Ok design.
Proof.
  intros N. unfold design_calls, frac. cbn [ofZ ROps mul add opp sub zero]. toR.
  assert (N2 : w * h * 2 <> 0) by lra.
  repeat (rewrite div_ok by (first [exact N2|lra]); cbn [bind]). reflexivity.
Qed.

Hypothesis W : 2 * tol9 <= w.
Hypothesis H : tol9 <= h.
Hypothesis I : tol9 <= i.
Lemma tol_pos : 0 < tol9 <= 1 / 2.
Proof. unfold tol9. split; [apply Rinv_0_lt_compat, pow_lt; lra|]. apply (Rmult_le_reg_l (10 ^ 9)); [apply pow_lt; lra|]. rewrite Rinv_r by (apply pow_nonzero; lra). lra. Qed.
Lemma far_x : forall p q, tol9 <= Rabs (px p - px q) -> tol9 <= dist p q.
Proof.
  intros p q D. pose proof tol_pos. eapply Rle_trans; [exact D|]. unfold dist. rewrite <- sqrt_Rsqr_abs. apply sqrt_le_1_alt. unfold Rsqr.
  pose proof (Rle_0_sqr (py p - py q)) as Q. unfold Rsqr in Q. lra.
Qed.
Lemma far_y : forall p q, tol9 <= Rabs (py p - py q) -> tol9 <= dist p q.
Proof.
  intros p q D. pose proof tol_pos. eapply Rle_trans; [exact D|]. unfold dist. rewrite <- sqrt_Rsqr_abs. apply sqrt_le_1_alt. unfold Rsqr.
  pose proof (Rle_0_sqr (px p - px q)) as Q. unfold Rsqr in Q. lra.
Qed.
Lemma abs_lo : forall a, tol9 <= a \/ tol9 <= - a -> tol9 <= Rabs a.
Proof. intros a D. unfold Rabs. destruct (Rcase_abs a); pose proof tol_pos; lra. Qed.
Lemma box_bounds : forall p c d, in_box p c d -> (px c <= px p <= px d \/ px d <= px p <= px c) /\ (py c <= py p <= py d \/ py d <= py p <= py c).
Proof. intros p c d [X Y]. unfold Rmin, Rmax in *. repeat destruct (Rle_dec _ _); lra. Qed.
(** the twelve vertices *)
Definition vs : list pt := [P (i / 2) 0; P ((i + w) / 2) 0; P ((i + w) / 2) h; P (i / 2) h; P (- (i / 2)) 0; P (- ((i + w) / 2)) 0; P (- ((i + w) / 2)) h; P (- (i / 2)) h;
  P (- (1 / 2)) (-1); P (1 / 2) (-1); P (1 / 2) (-2); P (- (1 / 2)) (-2)].
Lemma edge_vs : forall a b, In (a, b) (all_edges design) -> In a vs /\ In b vs.
Proof.
  intros a b J. cbn in J. unfold vs, px, py in *. cbn in J.
  repeat (destruct J as [J|J]; [injection J as <- <-; cbn [In]; intuition|]). destruct J.
Qed.
Lemma ends_vs : forall p, ends (all_edges design) p -> In p vs.
Proof. intros p [q [J|J]]; apply edge_vs in J; tauto. Qed.
Ltac pick J := cbn [In] in J; repeat (destruct J as [J|J]; [subst|]); [..|destruct J].
Ltac far := first [apply far_x; apply abs_lo; rewrite !px_P; first [left; lra|right; lra]|apply far_y; apply abs_lo; rewrite !py_P; first [left; lra|right; lra]].
Lemma vs_apart : forall p q, In p vs -> In q vs -> p <> q -> tol9 <= dist p q.
Proof.
  pose proof tol_pos as TP. intros p q Jp Jq N. unfold vs in Jp, Jq. pick Jp; pick Jq; first [exfalso; apply N; reflexivity|far].
Qed.
(** no vertex lies in the box of an edge of which it is not an end *)
Lemma vs_clear : forall p a b, In p vs -> In (a, b) (all_edges design) -> p <> a -> p <> b -> ~ in_box p a b.
Proof.
  pose proof tol_pos as TP. intros p a b Jp J Na Nb B. apply box_bounds in B. cbn in J. unfold px, py in J. cbn in J.
  repeat (destruct J as [J|J]; [injection J as <- <-; unfold vs in Jp; pick Jp; first [apply Na; reflexivity|apply Nb; reflexivity|rewrite ?px_P, ?py_P in B; cbn in B; lra]|]). destruct J.
Qed.
Lemma design_plane : plane (all_edges design).
Proof.
  split; [|split].
  - pose proof tol_pos as TP. intros a b J E. cbn in J. unfold px, py in J. cbn in J.
    repeat (destruct J as [J|J]; [injection J as <- <-; injection E; intros; lra|]). destruct J.
  - intros p q Jp Jq N. apply vs_apart; auto; apply ends_vs; auto.
  - intros a b c d J K N1 N2 N3 N4. left. apply edge_vs in J. destruct J as [J1 J2]. split; apply vs_clear; auto.
Qed.
Lemma design_plain : Forall plain design.
Proof. repeat constructor. Qed.
End Design.

Section Design2.
Variable mat : Type.
Variables iron copper : mat.
Notation dcalls := (design_calls ROps mat iron copper).
Lemma design_seeds : forall w h i, 0 < w -> 0 < h -> 0 < i ->
  forall q v, In (DrawRegion q v) (design mat iron copper w h i) -> exists p1 p2, In (DrawRectangle p1 p2) (design mat iron copper w h i) /\ inside_rectangle q p1 p2 /\
    magnet_of v = P 0 0 /\ (current_of v = 0 -> snd v = iron) /\
    (current_of v <> 0 -> snd v = copper /\ (0 < current_of v <-> 0 < px q) /\ Rabs (current_of v) * (Rabs (px p2 - px p1) * Rabs (py p2 - py p1)) = 250).
Proof.
  intros w h i W H I q v J. cbn [In design] in J.
  destruct J as [J|[J|[J|[J|J]]]]; try discriminate.
  assert (0 < w * h) by (apply Rmult_lt_0_compat; lra).
  assert (0 < 1000 / (w * h * 2)) by (apply Rdiv_lt_0_compat; lra).
  destruct J as [J|[J|[J|[J|[]]]]]; injection J as <- <-.
  - exists (P (i / 2) 0), (P (- (i / 2)) h). split; [cbn; tauto|]. split; [unfold inside_rectangle, Rmin, Rmax; rewrite ?px_P, ?py_P; repeat destruct (Rle_dec _ _); lra|].
    split; [reflexivity|]. split; [reflexivity|]. unfold current_of. cbn [fst]. lra.
  - exists (P (i / 2) 0), (P ((i + w) / 2) h). split; [cbn; tauto|]. split; [unfold inside_rectangle, Rmin, Rmax; rewrite ?px_P, ?py_P; repeat destruct (Rle_dec _ _); lra|].
    split; [reflexivity|]. unfold current_of. cbn [fst snd]. split; [lra|].
    intros _. split; [reflexivity|]. rewrite ?px_P, ?py_P. split; [lra|].
    rewrite !Rabs_pos_eq; [field; lra|lra|lra|lra].
  - exists (P (- (i / 2)) 0), (P (- ((i + w) / 2)) h). split; [cbn; tauto|]. split; [unfold inside_rectangle, Rmin, Rmax; rewrite ?px_P, ?py_P; repeat destruct (Rle_dec _ _); lra|].
    split; [reflexivity|]. unfold current_of. cbn [fst snd]. split; [lra|].
    intros _. split; [reflexivity|]. rewrite ?px_P, ?py_P. split; [lra|].
    rewrite Rabs_Ropp. rewrite (Rabs_left (_ - _)) by lra.
    rewrite !Rabs_pos_eq; [field; lra|lra|lra].
  - exists (P (- (1 / 2)) (-1)), (P (1 / 2) (-2)). split; [cbn; tauto|]. split; [unfold inside_rectangle, Rmin, Rmax; rewrite ?px_P, ?py_P; repeat destruct (Rle_dec _ _); lra|].
    split; [reflexivity|]. split; [reflexivity|]. unfold current_of. cbn [fst]. lra.
Qed.

Lemma cost_run : forall measure w h i, w * h <> 0 ->
  cost_function ROps mat iron copper measure w h i = measure (design mat iron copper w h i) (true, 1, 33%Z).
Proof.
  intros measure w h i N. unfold cost_function. rewrite design_run by auto. cbn [bind]. unfold frac. cbn [ofZ ROps]. rewrite div_ok by lra. cbn [bind].
  unfold generate1. cbn [eqb zero ROps ofZ]. f_equal. f_equal. f_equal. unfold Reqb. destruct (Req_EM_T _ _); auto. lra.
Qed.

Lemma descend_height : forall cost w h i w' h' i', descend ROps cost (w, h, i) = Ok (w', h', i') -> h' = h.
Proof.
  intros cost w h i w' h' i' E. unfold descend in E.
  repeat (match type of E with (bind ?r _) = _ => destruct r; cbn [bind] in E; [|discriminate..] end). congruence.
Qed.
Lemma descent_height : forall n cost w h i w' h' i', descent ROps n cost (w, h, i) = Ok (w', h', i') -> h' = h.
Proof.
  induction n; intros cost w h i w' h' i' E; cbn [descent] in E; [congruence|].
  destruct (descend ROps cost (w, h, i)) as [[[w1 h1] i1]| | |] eqn:D; cbn [bind] in E; [|discriminate..].
  apply descend_height in D. subst h1. eapply IHn; eauto.
Qed.
Lemma descent_affine : forall n cost c0 c1 c2 c3 w h i, (forall w h i, cost w h i = Ok (c0 + c1 * w + c2 * h + c3 * i)) ->
  descent ROps n cost (w, h, i) = Ok (w + INR n * (1000 * c1), h, i + INR n * (1000 * c3)).
Proof.
  induction n; intros cost c0 c1 c2 c3 w h i C; cbn [descent].
  - f_equal. f_equal; [f_equal|]; cbn [INR]; lra.
  - unfold descend, frac. cbn [ofZ ROps add sub mul]. rewrite div_ok by lra. cbn [bind]. rewrite !C. cbn [bind].
    rewrite !div_ok by lra. cbn [bind]. rewrite (IHn cost c0 c1 c2 c3) by auto. rewrite S_INR. f_equal. f_equal; [f_equal|]; field.
Qed.
(** a force that is quadratic in the two parameters that move *)
Lemma descent_quadratic : forall n cost c0 u q r g w h i,
  (forall w h i, cost w h i = Ok (c0 + q * (w - u) * (w - u) + g h + r * (i - u) * (i - u))) ->
  descent ROps n cost (w, h, i) = Ok (u - 3 / 20 + (1 + 2000 * q) ^ n * (w - (u - 3 / 20)), h, u - 3 / 20 + (1 + 2000 * r) ^ n * (i - (u - 3 / 20))).
Proof.
  induction n; intros cost c0 u q r g w h i C; cbn [descent].
  - f_equal. f_equal; [f_equal|]; cbn [pow]; lra.
  - unfold descend, frac. cbn [ofZ ROps add sub mul]. rewrite div_ok by lra. cbn [bind]. rewrite !C. cbn [bind].
    rewrite !div_ok by lra. cbn [bind]. rewrite (IHn cost c0 u q r g) by auto. cbn [pow]. f_equal. f_equal; [f_equal|]; field.
Qed.
End Design2.

