(** Property C66.  Vocabulary in RingSpec.v, model in LayersModel.v. *)
From Coq Require Import String.
From Coq Require Import List Arith ZArith Bool Lia Reals Lra Permutation.
From Verif Require Import Base GeometryModel GeometrySpec Geometry_proofs DrawingModel DrawingSpec LayersModel RingSpec Ring_proofs.
Import ListNotations.
Local Open Scope R_scope.

(** every end and its two rings are drawn in its layer, and nothing else *)
Theorem C66_points : forall (A : Type) (lm : libm ROps), exact_libm lm -> forall links (ds : list (drawing ROps A)),
  Forall (fun k : link ROps => (k_layer1 k < length ds /\ k_layer2 k < length ds)%nat) links -> (forall d, In d ds -> sound d) ->
  exists ds', draw_links ROps A lm links ds = Ok ds' /\ length ds' = length ds /\
    forall l d, nth_error ds l = Some d -> exists d' new cs, nth_error ds' l = Some d' /\ only_adds_points d d' /\ points d' = points d ++ ends links l ++ new /\
      Forall2 (clear_of d) (ends links l) cs /\ Permutation new (flat_map (fun pc => rings (fst pc) (snd pc)) (combine (ends links l) cs)).
Proof. intros A lm E. exact (draw_links_run lm E). Qed.
Print Assumptions C66_points.
(** the points of a ring are a half or a quarter of the distance to the nearest segment away from its centre, and no closer than
    that half to any segment *)
Theorem C66_clear : forall (A : Type) (d : drawing ROps A) p c q, clear_of d p c -> In q (rings p c) ->
  (dist p q = c / 2 \/ dist p q = c / 4) /\
  forall s a b z, In s (segments d) -> nth_error (points d) (fst s) = Some a -> nth_error (points d) (snd s) = Some b -> a <> b -> on_segment z a b -> c / 2 <= dist q z.
Proof. exact ring_apart. Qed.
Print Assumptions C66_clear.
Theorem C66_symmetric : forall p c q, In q (rings p c) -> In (opposite p q) (rings p c).
Proof. exact ring_symmetric. Qed.
Print Assumptions C66_symmetric.
(** an interconnection that ends on a segment: both rings shrink to its end, which is drawn twenty times more *)
Theorem C66_on_segment : forall (A : Type) (d : drawing ROps A) p c s a b, clear_of d p c -> In s (segments d) ->
  nth_error (points d) (fst s) = Some a -> nth_error (points d) (snd s) = Some b -> a <> b -> on_segment p a b -> c = 0 /\ rings p c = repeat p 20.
Proof. exact ring_flat. Qed.
Print Assumptions C66_on_segment.

(** *** a layer with one segment; an interconnection beside it and one at its end *)
(** atan2 is not used *)
Definition rlm : libm ROps := mkLibm ROps sin cos (fun _ _ => 0) PI e100 0 (fun _ => Ok O).
Lemma rlm_exact : exact_libm rlm.
Proof. repeat split. Qed.
Definition bar : drawing ROps unit := mkD [] [] [P 0 0; P 4 0] [(0, 1)%nat] [].
Definition beside : link ROps := mkLink (P 1 2) (P 1 2) 0%nat 1%nat 1.
Definition at_end : link ROps := mkLink (P 0 0) (P 1 2) 0%nat 1%nat 1.
Lemma bar_sound : sound bar.
Proof. intros s [<-|[]]. exists (P 0 0), (P 4 0). split; [reflexivity|]. split; [reflexivity|]. intros Q. injection Q as Q. lra. Qed.
Lemma bars_sound : forall d, In d [bar; bar] -> sound d.
Proof. intros d [<-|[<-|[]]]; apply bar_sound. Qed.
Lemma bar_clear : clear_of bar (P 1 2) 2.
Proof.
  assert (D : segment_distance (P 1 2) (P 0 0) (P 4 0) 2).
  { split.
    - exists (P 1 0). split; [|unfold dist; rewrite !px_P, !py_P; replace ((1 - 1) * (1 - 1) + (2 - 0) * (2 - 0)) with (2 * 2) by ring; apply sqrt_square; lra].
      exists (1 / 4). split; [lra|]. unfold along, P. cbn. f_equal; lra.
    - intros q [t [Ht ->]]. assert (EA : along (P 0 0) (P 4 0) t = P (4 * t) 0) by (unfold along, P; cbn; f_equal; ring). rewrite EA. unfold dist. rewrite !px_P, !py_P.
      replace 2 with (sqrt (2 * 2)) at 1 by (apply sqrt_square; lra). apply sqrt_le_1_alt. pose proof (Rle_0_sqr (1 - 4 * t)) as Q. unfold Rsqr in Q. lra. }
  split; [cbn [dbl_max ROps]|].
  - assert (1 <= 2 - / 2 ^ 52). { assert (/ 2 ^ 52 <= 1); [|lra]. rewrite <- Rinv_1. apply Rinv_le_contravar; [lra|]. apply pow_R1_Rle. lra. }
    assert (2 <= 2 ^ 1023). { replace 2 with (2 ^ 1) at 1 by ring. apply Rle_pow; [lra|lia]. } nra.
  - split; [|right; exists (0, 1)%nat, (P 0 0), (P 4 0); cbn; auto].
    intros x [s [a [b [[<-|[]] [E1 [E2 E3]]]]]]. cbn in E1, E2. injection E1 as <-. injection E2 as <-. destruct E3 as [[q [Q1 <-]] _]. destruct D as [_ D]. auto.
Qed.
Example C66_example : exists ds' d', draw_links ROps unit rlm [beside; at_end] [bar; bar] = Ok ds' /\ nth_error ds' 1 = Some d' /\ length (points d') = 44%nat /\
  In (P 2 2) (points d') /\ In (P (1 / 2) 2) (points d').
Proof.
  destruct (C66_points unit rlm rlm_exact [beside; at_end] [bar; bar]) as [ds' [E [_ H]]]; [repeat constructor|apply bars_sound|].
  destruct (H 1%nat bar eq_refl) as [d' [new [cs [N [_ [EP [C PR]]]]]]]. exists ds', d'. split; auto. split; auto. cbn [ends flat_map k_layer1 k_layer2 k_p1 k_p2 beside at_end Nat.eqb app] in *.
  inversion C as [|? c1 ? ? C1 CR]; subst. inversion CR as [|? c2 ? ? C2 CN]; subst. inversion CN; subst. cbn [combine flat_map fst snd] in PR.
  pose proof (clear_unique bar _ _ _ C1 bar_clear) as ->. pose proof (clear_unique bar _ _ _ C2 bar_clear) as ->.
  rewrite EP. split; [rewrite app_length; cbn [points bar length app]; rewrite (Permutation_length PR); reflexivity|].
  assert (I : forall q, In q (rings (P 1 2) 2) -> In q (points bar ++ [P 1 2; P 1 2] ++ new)).
  { intros q Q. apply in_or_app. right. apply in_or_app. right. apply (Permutation_in _ (Permutation_sym PR)). apply in_or_app. auto. }
  split; apply I; unfold rings; apply in_or_app; [left|right]; apply in_map_iff; [exists 0%nat|exists 5%nat]; (split; [|apply in_seq; lia]); unfold circle_vertex; rewrite px_P, py_P.
  - replace (2 * PI * INR 0 / INR 10) with 0 by (cbn [INR]; unfold Rdiv; ring). rewrite cos_0, sin_0. unfold P. f_equal; lra.
  - replace (2 * PI * INR 5 / INR 10) with PI by (cbn [INR]; field). rewrite cos_PI, sin_PI. unfold P. f_equal; lra.
Qed.
(** *** claim: no point is drawn twice *)
Theorem C66_refuted : exists ds' d', draw_links ROps unit rlm [at_end] [bar; bar] = Ok ds' /\ nth_error ds' 0 = Some d' /\ length (points d') = 23%nat /\
  points d' = [P 0 0; P 4 0] ++ repeat (P 0 0) 21.
Proof.
  destruct (C66_points unit rlm rlm_exact [at_end] [bar; bar]) as [ds' [E [_ H]]]; [repeat constructor|apply bars_sound|].
  destruct (H 0%nat bar eq_refl) as [d' [new [cs [N [_ [EP [C PR]]]]]]]. exists ds', d'. split; auto. split; auto. cbn [ends flat_map k_layer1 k_layer2 k_p1 k_p2 at_end Nat.eqb app] in *.
  inversion C as [|? c1 ? ? C1 CN]; subst. inversion CN; subst. cbn [combine flat_map fst snd] in PR. rewrite app_nil_r in PR.
  destruct (C66_on_segment unit bar (P 0 0) c1 (0, 1)%nat (P 0 0) (P 4 0) C1) as [Z1 Z2]; [left; auto|reflexivity|reflexivity|intros Q; injection Q as Q; lra| |].
  { exists 0. split; [lra|]. unfold along, P. cbn. f_equal; lra. }
  rewrite Z2 in PR. assert (EN : new = repeat (P 0 0) 20) by (apply Permutation_repeat; exact PR).
  rewrite EP, EN. split; reflexivity.
Qed.
Print Assumptions C66_refuted.
