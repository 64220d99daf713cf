(** Property C100.  Vocabulary in AgainSpec.v. *)
From Coq Require Import String.
From Coq Require Import List Arith ZArith NArith Bool Lia Permutation.
From Coq Require Import Reals Lra.
From Verif Require Import Base AlgebraModel SolversSpec GeometryModel GeometrySpec Geometry_proofs Circle_proofs.
From Verif Require Import DrawingModel DrawingSpec SetupModel SetupSpec Setup_proofs Setup2_proofs LayersModel RingSpec AgainSpec Props_Setup Props_Ring Again_proofs.
Import ListNotations.
Local Open Scope R_scope.

(** ** C100: generating a system again *)
(** magnetostatics: whatever the areas, each call makes the boundary half as large again as the last one, around all the
    boundaries before; from the second call on the centre is the origin, although the drawing stays where the first call
    moved it *)
Theorem C100_grows : forall lm A peq (air : A) mag (d : drawing ROps A) m areas, exact_libm lm -> truncates lm ->
  well_formed d -> points d <> [] -> reach (points d) m -> dist (centroid (points d)) org <= m / 4 -> 16 * tol9 <= m -> areas <> [] -> moderate m areas ->
  exists xs d', generated lm peq air mag d areas xs d' /\ length xs = length areas /\
    (forall j area c r n, nth_error areas j = Some area -> nth_error xs j = Some (c, r, n) -> c = (if Nat.eqb j 0 then centroid (points d) else org) /\ grown m area j r n) /\
    points d' = map (shift (P (- px (centroid (points d))) (- py (centroid (points d))))) (points d) ++ flat_map (fun x => map (circle_vertex org (snd (fst x)) (snd x)) (seq 0 (snd x))) xs /\ well_formed d'.
Proof.
  intros lm A peq air mag d m areas Hx Ht W NE RE C MT N0 MO. destruct areas as [|area areas]; [congruence|].
  destruct (MO 0%nat area eq_refl) as [s [EQ [SM [MS ST]]]]. cbn [pow] in SM, MS. rewrite Rmult_1_l in SM, MS.
  assert (F : fit A d m s area) by (repeat (split; [assumption|]); auto).
  destruct (one_setup lm Hx Ht A peq air mag d m s area F) as [d1 [n [ES [NU [PA [_ [W1 [N1 [RE1 C1]]]]]]]]].
  destruct (later_calls lm Hx Ht A peq air mag areas d1 (3 / 2 * m) W1 N1 RE1 C1) as [xs [d' [G [LX [HX [PX W']]]]]]; [pose proof tol9_pos; lra| |].
  - intros j a Hj. destruct (MO (S j) a Hj) as [s' [EQ' [SM' [MS' ST']]]]. exists s'. cbn [pow] in SM', MS'. replace ((3 / 2) ^ j * (3 / 2 * m)) with (3 / 2 * (3 / 2) ^ j * m) by ring. auto.
  - exists ((centroid (points d), 3 / 2 * m, n) :: xs), d'. split; [econstructor; eauto|]. split; [cbn [length]; congruence|]. split.
    + intros [|j] a c r k Ha Hk; cbn [nth_error] in Ha, Hk.
      * injection Ha as <-. injection Hk as <- <- <-. split; [reflexivity|]. split; [cbn [pow]; ring|]. intros s2 [S2 EQ2].
        assert (s2 = s). { destruct EQ as [S1 EQ]. pose proof sqrt3_pos. assert (s2 * s2 = s * s) by (apply Rmult_eq_reg_l with (sqrt 3 / 4); lra). nra. }
        subst s2. replace (4 * PI * (3 / 2 * m) / s) with (6 * PI * m / s) by (field; lra). exact NU.
      * destruct (HX j a c r k Ha Hk) as [-> [-> K]]. split; [reflexivity|]. split; [cbn [pow]; ring|exact K].
    + split; [|exact W']. rewrite PX, PA. unfold c0. cbn [flat_map fst snd]. rewrite app_assoc. reflexivity.
Qed.
Print Assumptions C100_grows.
(** joined layers: every call draws the points for all interconnections once more, in the same places *)
Theorem C100_layers : forall A (lm : libm ROps), exact_libm lm -> forall links k (ds : list (drawing ROps A)),
  Forall (fun l : link ROps => (k_layer1 l < length ds /\ k_layer2 l < length ds)%nat) links -> (forall d, In d ds -> sound d) ->
  exists ds', relinked lm links k ds ds' /\ length ds' = length ds /\
    forall l d, nth_error ds l = Some d -> exists d' cs blocks, nth_error ds' l = Some d' /\ only_adds_points d d' /\ Forall2 (clear_of d) (ends links l) cs /\
      length blocks = k /\ Forall (fun b => Permutation b (link_points links l cs)) blocks /\ points d' = points d ++ concat blocks.
Proof. intros A. exact (calls_again A). Qed.
Print Assumptions C100_layers.
(** without interconnections, or with a single conductor, the drawing stays as it is and so does the mesher's input *)
Theorem C100_unlinked : forall A (lm : libm ROps) k (ds ds' : list (drawing ROps A)), relinked lm [] k ds ds' -> ds' = ds.
Proof. intros A lm k. induction k as [|k IH]; intros ds ds' H; inversion H as [|? ? ds1 ? E G]; subst; [reflexivity|]. injection E as <-. apply IH, G. Qed.
Print Assumptions C100_unlinked.

(** *** a plate of which the centroid is beside the origin, twice with the same area *)
Definition plate : drawing ROps nat :=
  mkD [7%nat] [(P 0 0, 0%nat)] [P 3 2; P (-2) 2; P (-2) (-2); P 3 (-2)] [(0, 1); (1, 2); (2, 3); (3, 0)]%nat [[P 3 2; P (-2) 2; P (-2) (-2); P 3 (-2)]].
Lemma plate_centre : centroid (points plate) = P (1 / 2) 0.
Proof. unfold centroid. cbn [points plate sumx sumy length]. apply pt_ext; rewrite ?px_P, ?py_P; simpl; field. Qed.
Lemma root13 : 3 <= sqrt 13 <= 4 /\ sqrt 13 * sqrt 13 = 13.
Proof. split; [|apply sqrt_sqrt; lra]. split; [replace 3 with (sqrt (3 * 3)) by (apply sqrt_square; lra)|replace 4 with (sqrt (4 * 4)) by (apply sqrt_square; lra)]; apply sqrt_le_1; lra. Qed.
Example C100_met : well_formed plate /\ points plate <> [] /\ reach (points plate) (sqrt 13) /\ dist (centroid (points plate)) org <= sqrt 13 / 4 /\ 16 * tol9 <= sqrt 13 /\
  moderate (sqrt 13) [sqrt 3 / 4; sqrt 3 / 4] /\ exact_libm setup_libm /\ truncates setup_libm.
Proof.
  destruct root13 as [R13 MM]. assert (T9 : tol9 <= / 100). { unfold tol9. apply Rinv_le_contravar; [lra|]. lra. }
  split; [split; [|split]|].
  - intros s H. cbn in H. destruct H as [<-|[<-|[<-|[<-|[]]]]]; cbn; lia.
  - intros i j s t Hi Hj E. unfold same_ends in E.
    do 4 (destruct i as [|i]; [cbn in Hi; inversion Hi; subst; do 4 (destruct j as [|j]; [cbn in Hj; inversion Hj; subst; cbn in E; (lia || (exfalso; destruct E as [[? ?]|[? ?]]; lia))|]); destruct j; discriminate|]).
    destruct i; discriminate.
  - intros r H. cbn in H. destruct H as [<-|[]]; cbn; lia.
  - split; [discriminate|]. split; [split|].
    + intros p Hp. apply dist_le; [lra|]. rewrite MM. unfold org. cbn [points plate In] in Hp. destruct Hp as [<-|[<-|[<-|[<-|[]]]]]; rewrite !px_P, !py_P; lra.
    + exists (P 3 2). split; [left; reflexivity|]. apply Rle_antisym; [apply dist_le; [lra|]|apply dist_ge]; rewrite MM; unfold org; rewrite !px_P, !py_P; lra.
    + split; [rewrite plate_centre; apply dist_le; [lra|]; unfold org; rewrite !px_P, !py_P; nra|]. split; [lra|]. split; [|split; [exact setup_libm_exact|exact setup_libm_truncates]].
      intros [|[|j]] area H; try (destruct j; discriminate); injection H as <-; exists 1; cbn [pow]; (split; [split; lra|]); lra.
Qed.
Theorem C100_refuted : exists lm A peq (air : A) mag (d d1 d2 : drawing ROps A) area c1 r1 n1 c2 r2 n2, exact_libm lm /\ truncates lm /\ well_formed d /\
  setup ROps lm A peq air mag false false area d = (d1, Ok (c1, r1, n1)) /\ setup ROps lm A peq air mag false false area d1 = (d2, Ok (c2, r2, n2)) /\
  c1 <> c2 /\ r1 < r2 /\ (n1 < n2)%nat /\
  (forall q, In q (points d) -> In (P (px q - px c1) (py q - py c1)) (points d1)) /\ (exists q, In q (points d) /\ ~ In (P (px q - px c2) (py q - py c2)) (points d2)).
Proof.
  destruct C100_met as [W [NE [RE [C [MT [MO [Hx Ht]]]]]]]. destruct root13 as [R13 MM].
  destruct (C100_grows setup_libm nat Nat.eqb 9%nat (fun _ => org) plate (sqrt 13) [sqrt 3 / 4; sqrt 3 / 4] Hx Ht W NE RE C MT ltac:(discriminate) MO) as [xs [d2 [G [LX [HX [PX _]]]]]].
  inversion G as [|? ? d1 x1 ? xs1 ? E1 G1]; subst. inversion G1 as [|? ? d2' x2 ? xs2 ? E2 G2]; subst. inversion G2; subst. destruct x1 as [[c1 r1] n1]. destruct x2 as [[c2 r2] n2].
  destruct (HX 0%nat _ c1 r1 n1 eq_refl eq_refl) as [EC1 [ER1 K1]]. destruct (HX 1%nat _ c2 r2 n2 eq_refl eq_refl) as [EC2 [ER2 K2]]. cbn [Nat.eqb] in EC1, EC2. rewrite plate_centre in EC1. subst c1 c2.
  assert (Q : equilateral 1 (sqrt 3 / 4)) by (split; lra). specialize (K1 1 Q). specialize (K2 1 Q). cbn [pow] in ER1, ER2. pose proof PI2_3_2 as P3.
  exists setup_libm, nat, Nat.eqb, 9%nat, (fun _ => org), plate, d1, d2, (sqrt 3 / 4), (P (1 / 2) 0), r1, n1, org, r2, n2.
  do 3 (split; [assumption|]). split; [exact E1|]. split; [exact E2|].
  split; [intros H; injection H as H; lra|]. split; [lra|]. split; [apply INR_lt; rewrite ER1 in K1; rewrite ER2 in K2; nra|]. split.
  - intros q Hq. destruct (C100_grows setup_libm nat Nat.eqb 9%nat (fun _ => org) plate (sqrt 13) [sqrt 3 / 4] Hx Ht W NE RE C MT ltac:(discriminate)) as [ys [e1 [Ge [_ [_ [Pe _]]]]]].
    { intros [|j] area H; [exact (MO 0%nat area H)|destruct j; discriminate]. }
    inversion Ge as [|? ? e x3 ? ys1 ? E3 G3]; subst. inversion G3; subst. change (T ROps) with R in *. rewrite E1 in E3. injection E3 as <- _. rewrite Pe. apply in_or_app. left. apply in_map_iff. exists q. split; [|exact Hq]. rewrite plate_centre. apply pt_ext; unfold shift; rewrite ?px_P, ?py_P; ring.
  - exists (P 3 2). split; [left; reflexivity|]. intros I. rewrite PX, plate_centre in I. apply in_app_or in I. destruct I as [I|I].
    + cbn [points plate map In] in I. unfold org in I. rewrite !px_P, !py_P in I. unfold shift in I. rewrite !px_P, !py_P in I. destruct I as [I|[I|[I|[I|[]]]]]; apply (f_equal px) in I; rewrite !px_P in I; lra.
    + assert (D : dist (P (px (P 3 2) - px org) (py (P 3 2) - py org)) org < r1).
      { apply Rle_lt_trans with (sqrt 13); [|lra]. apply dist_le; [lra|]. rewrite MM. unfold org. rewrite !px_P, !py_P. lra. }
      cbn [flat_map fst snd] in I. rewrite app_nil_r in I. apply in_app_or in I. destruct I as [I|I]; apply in_map_iff in I; destruct I as [k [EK Hk]]; rewrite <- EK in D.
      * rewrite v_radius in D by lra. lra.
      * rewrite v_radius in D by lra. lra.
Qed.
Print Assumptions C100_refuted.
(** an interconnection between two bars: 21 more points in each layer with every call *)
Example C100_layers_met : exists ds' d', relinked rlm [beside] 3 [bar; bar] ds' /\ nth_error ds' 1 = Some d' /\ length (points d') = 65%nat.
Proof.
  destruct (C100_layers unit rlm rlm_exact [beside] 3 [bar; bar]) as [ds' [G [_ H]]]; [repeat constructor|apply bars_sound|]. destruct (H 1%nat bar eq_refl) as [d' [cs [blocks [Hd [_ [F [L [FB PB]]]]]]]].
  exists ds', d'. split; auto. split; auto. rewrite PB, app_length. inversion F as [|? c ? cs' _ F']; subst. inversion F'; subst.
  destruct blocks as [|b1 [|b2 [|b3 [|b4 blocks]]]]; try discriminate. inversion FB as [|? ? H1 FB1]; subst. inversion FB1 as [|? ? H2 FB2]; subst. inversion FB2 as [|? ? H3 _]; subst.
  cbn [concat]. rewrite !app_length. rewrite (Permutation_length H1), (Permutation_length H2), (Permutation_length H3). reflexivity.
Qed.
