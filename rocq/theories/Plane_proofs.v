(** Drawings whose outlines meet only at common vertices are accepted. *)
From Coq Require Import String.
From Coq Require Import List Arith ZArith NArith Bool Lia.
From Coq Require Import Reals Lra.
From Verif Require Import Base GeometryModel GeometrySpec Geometry_proofs Segment_proofs DrawingModel DrawingSpec Drawing_proofs DrawingR_proofs DrawingR2_proofs DrawingIds_proofs Solvers_bridge Props_Geometry PlaneSpec.
Import ListNotations.
Local Open Scope R_scope.

Section Plane.
Variable lm : libm ROps.
Variable A : Type.
Variable peq : A -> A -> bool.
Hypothesis exact : exact_libm lm.
Notation drawing := (drawing ROps A).
Variable E : list (pt * pt).
Hypothesis PL : plane E.

Lemma ends_l : forall D a b, In (a, b) D -> ends D a.
Proof. intros D a b H. exists b. auto. Qed.
Lemma ends_r : forall D a b, In (a, b) D -> ends D b.
Proof. intros D a b H. exists a. auto. Qed.
Lemma ends_mono : forall D D' p, incl D D' -> ends D p -> ends D' p.
Proof. intros D D' p H [q [I|I]]; exists q; auto. Qed.
Lemma ends_app : forall D a b p, ends (D ++ [(a, b)]) p <-> ends D p \/ p = a \/ p = b.
Proof.
  intros D a b p. split.
  - intros [q [I|I]]; apply in_app_or in I; (destruct I as [I|[I|[]]]; [left; exists q; auto|injection I as I1 I2; subst; auto]).
  - intros [[q [I|I]]|[->| ->]]; [exists q; left; apply in_or_app; auto|exists q; right; apply in_or_app; auto|exists b; left|exists a; right]; apply in_or_app; right; left; auto.
Qed.
Lemma near_eq : forall p q, ends E p -> ends E q -> near p q -> p = q.
Proof.
  intros p q Hp Hq N. destruct PL as [_ [S _]]. destruct (Req_dec (px p) (px q)) as [X|X]; [destruct (Req_dec (py p) (py q)) as [Y|Y]|].
  - apply pt_ext; auto.
  - exfalso. unfold near in N. assert (p <> q) by congruence. specialize (S p q Hp Hq H). lra.
  - exfalso. unfold near in N. assert (p <> q) by congruence. specialize (S p q Hp Hq H). lra.
Qed.

(** the drawing after the edges [D] *)
Definition state (D : list (pt * pt)) (d : drawing) : Prop :=
  NoDup (points d) /\ (forall p, In p (points d) <-> ends D p) /\
  (forall s, In s (segments d) -> exists a b, nth_error (points d) (fst s) = Some a /\ nth_error (points d) (snd s) = Some b /\ In (a, b) D) /\
  (forall a b, In (a, b) D -> stored d a b \/ stored d b a).

Lemma clear_check : forall a b u v, a <> b -> clear a b u v -> pointInSegmentBB ROps a u v || pointInSegmentBB ROps b u v = true -> segmentsIntersect ROps (tiny ROps lm) a b u v = false.
Proof.
  intros a b u v N [[X1 X2]|[X [C1 C2]]] B.
  - exfalso. apply orb_true_iff in B. destruct B as [B|B]; apply C24_bounding_box in B; auto.
  - destruct exact as [_ [_ [_ ->]]]. destruct (segmentsIntersect ROps e100 a b u v) eqn:S; auto. exfalso. apply X. apply C24_sound; auto.
Qed.
Lemma check_ok : forall pts a b i1 i2 segs, a <> b -> NoDup pts -> nth_error pts i1 = Some a -> nth_error pts i2 = Some b ->
  (forall s, In s segs -> exists u v, nth_error pts (fst s) = Some u /\ nth_error pts (snd s) = Some v /\ (a <> u -> a <> v -> b <> u -> b <> v -> clear a b u v)) ->
  (exists s, In s segs /\ same_ends s (i1, i2) /\ check_segments ROps lm pts a b (i1, i2) segs = Ok false) \/
  ((forall s, In s segs -> ~ same_ends s (i1, i2)) /\ check_segments ROps lm pts a b (i1, i2) segs = Ok true).
Proof.
  intros pts a b i1 i2 segs N ND H1 H2. induction segs as [|s segs IH]; intros H; cbn [check_segments]; [right; split; [intros s []|auto]|].
  destruct (same_segment s (i1, i2)) eqn:S; [left; exists s; apply same_segment_iff in S; split; [left; auto|auto]|].
  assert (NS : ~ same_ends s (i1, i2)) by (intros Q; apply same_segment_iff in Q; congruence).
  assert (REST : (exists t, In t (s :: segs) /\ same_ends t (i1, i2) /\ check_segments ROps lm pts a b (i1, i2) segs = Ok false) \/
    ((forall t, In t (s :: segs) -> ~ same_ends t (i1, i2)) /\ check_segments ROps lm pts a b (i1, i2) segs = Ok true)).
  { destruct IH as [[t [It Q]]|[It Q]]; [intros t It; apply H; right; auto|left; exists t; split; [right; auto|auto]|right; split; auto]. intros t [<-|J]; auto. }
  destruct (connected s (i1, i2)) eqn:K; auto. destruct (H s (or_introl eq_refl)) as [u [v [Hu [Hv CL]]]].
  rewrite (get_some _ _ _ _ Hu), (get_some _ _ _ _ Hv). cbn [bind].
  destruct (pointInSegmentBB ROps a u v || pointInSegmentBB ROps b u v) eqn:B; cbn [negb]; auto.
  unfold connected in K. cbn [fst snd] in K. rewrite !orb_false_iff, !Nat.eqb_neq in K. destruct K as [[[K1 K2] K3] K4].
  rewrite (clear_check a b u v); auto. apply CL.
  - intros ->. apply K1. apply (NoDup_nth_error pts); auto; [apply nth_error_Some; congruence|congruence].
  - intros ->. apply K3. apply (NoDup_nth_error pts); auto; [apply nth_error_Some; congruence|congruence].
  - intros ->. apply K2. apply (NoDup_nth_error pts); auto; [apply nth_error_Some; congruence|congruence].
  - intros ->. apply K4. apply (NoDup_nth_error pts); auto; [apply nth_error_Some; congruence|congruence].
Qed.

Lemma nodup_snoc : forall (l : list pt) p, NoDup l -> ~ In p l -> NoDup (l ++ [p]).
Proof. intros l p H N. apply NoDup_rev in H. rewrite <- (rev_involutive (l ++ [p])). apply NoDup_rev. rewrite rev_unit. constructor; auto. rewrite <- in_rev; auto. Qed.

Lemma seg_ok : forall D d a b, incl D E -> In (a, b) E -> state D d ->
  exists d', drawSegment ROps lm A a b d = (d', Ok tt) /\ state (D ++ [(a, b)]) d' /\ polygons d' = polygons d /\ regions d' = regions d /\ region_map d' = region_map d.
Proof.
  intros D d a b HD HE [ND [PT [SG ST]]]. pose proof PL as [NE [SEP CLR]]. pose proof (NE a b HE) as AB.
  pose proof (ends_l E a b HE) as Ea. pose proof (ends_r E a b HE) as Eb.
  assert (PE : forall p, In p (points d) -> ends E p) by (intros p Hp; apply (ends_mono D); auto; apply PT; auto).
  destruct (drawSegment_R lm A a b d) as [i1 [i2 [l1 [l2 [P1 [P2 EQ]]]]]]. cbv zeta in EQ.
  destruct (placed_at1 _ _ _ _ l2 P1) as [q1 [Q1 M1]]. destruct (placed_at2 _ _ _ _ _ P2) as [q2 [Q2 M2]].
  set (pts := points d ++ l1 ++ l2) in *.
  (* what was appended *)
  assert (L1 : (l1 = [] /\ In a (points d)) \/ (l1 = [a] /\ ~ In a (points d))).
  { destruct P1 as [[-> [q [G1 G2]]]|[-> [_ G]]].
    - left. split; auto. apply near_iff in G2. apply nth_error_In in G1. rewrite <- (near_eq q a); auto.
    - right. split; auto. intros I. specialize (G a I). apply not_near_iff in G. apply G, near_self. }
  assert (L2 : (l2 = [] /\ In b (points d)) \/ (l2 = [b] /\ ~ In b (points d))).
  { destruct P2 as [[-> [q [G1 G2]]]|[-> [_ G]]].
    - left. split; auto. apply near_iff in G2. apply nth_error_In in G1. rewrite <- (near_eq q b); auto.
    - right. split; auto. intros I. specialize (G b I). apply not_near_iff in G. apply G, near_self. }
  assert (INP : forall p, In p pts <-> ends D p \/ p = a \/ p = b).
  { intros p. unfold pts. rewrite !in_app_iff, PT. split.
    - intros [H|[H|H]]; auto; [destruct L1 as [[-> _]|[-> _]]|destruct L2 as [[-> _]|[-> _]]]; cbn [In] in H; intuition.
    - intros [H|[->| ->]]; auto.
      + destruct L1 as [[-> I]|[-> _]]; [apply PT in I; auto|right; left; left; auto].
      + destruct L2 as [[-> I]|[-> _]]; [apply PT in I; auto|right; right; left; auto]. }
  assert (NDP : NoDup pts).
  { unfold pts. destruct L1 as [[-> I1]|[-> I1]], L2 as [[-> I2]|[-> I2]]; cbn [app]; rewrite ?app_nil_r; auto; try (apply nodup_snoc; auto).
    change [a; b] with ([a] ++ [b]). rewrite app_assoc. apply nodup_snoc; [apply nodup_snoc; auto|]. rewrite in_app_iff. intros [H|[H|[]]]; auto. }
  assert (PP : forall p, In p pts -> ends E p).
  { intros p Hp. apply INP in Hp. destruct Hp as [Hp|[->| ->]]; auto. apply (ends_mono D); auto. }
  assert (q1 = a) by (apply near_eq; auto; apply PP; eapply nth_error_In; eauto). subst q1.
  assert (q2 = b) by (apply near_eq; auto; apply PP; eapply nth_error_In; eauto). subst q2.
  assert (GR : forall i x, nth_error (points d) i = Some x -> nth_error pts i = Some x) by (intros i x H; unfold pts; apply nth_grow; auto).
  destruct (check_ok pts a b i1 i2 (segments d) AB NDP Q1 Q2) as [[s [Is [Se CK]]]|[Ns CK]].
  { intros s Is. destruct (SG s Is) as [u [v [Hu [Hv I]]]]. exists u, v. auto 6. }
  - rewrite CK in EQ. rewrite EQ. eexists. split; [reflexivity|]. split; [|auto].
    split; [exact NDP|]. split; [intros p; rewrite ends_app; apply INP|]. split.
    + intros t It. destruct (SG t It) as [u [v [Hu [Hv I]]]]. exists u, v. cbn [points after]. split; auto. split; auto. apply in_or_app; auto.
    + intros x y I. apply in_app_or in I. destruct I as [I|[I|[]]].
      * destruct (ST x y I) as [[t [It [G1 G2]]]|[t [It [G1 G2]]]]; [left|right]; exists t; cbn [segments points after]; auto.
      * injection I as <- <-. destruct Se as [[S1 S2]|[S1 S2]]; cbn [fst snd] in S1, S2; [left|right]; exists s; cbn [segments points after]; rewrite S1, S2; auto.
  - rewrite CK in EQ. rewrite EQ. eexists. split; [reflexivity|]. split; [|auto].
    split; [exact NDP|]. split; [intros p; rewrite ends_app; apply INP|]. split.
    + intros t It. cbn [segments after] in It. apply in_app_or in It. cbn [points after]. destruct It as [It|[<-|[]]].
      * destruct (SG t It) as [u [v [Hu [Hv I]]]]. exists u, v. split; auto. split; auto. apply in_or_app; auto.
      * exists a, b. split; auto. split; auto. apply in_or_app; right; left; auto.
    + intros x y I. apply in_app_or in I. destruct I as [I|[I|[]]].
      * destruct (ST x y I) as [[t [It [G1 G2]]]|[t [It [G1 G2]]]]; [left|right]; exists t; cbn [segments points after]; (split; [apply in_or_app; auto|auto]).
      * injection I as <- <-. left. exists (i1, i2). cbn [segments points after fst snd]. split; [apply in_or_app; right; left; auto|auto].
Qed.

Lemma run_ok : forall L D d, incl D E -> incl L E -> state D d ->
  exists d', run_edges lm A L d = (d', Ok tt) /\ state (D ++ L) d' /\ polygons d' = polygons d /\ regions d' = regions d.
Proof.
  induction L as [|[a b] L IH]; intros D d HD HL S; cbn [run_edges].
  - exists d. rewrite app_nil_r. auto.
  - destruct (seg_ok D d a b HD (HL _ (or_introl eq_refl)) S) as [d1 [E1 [S1 [P1 [R1 _]]]]].
    destruct (IH (D ++ [(a, b)]) d1) as [d2 [E2 [S2 [P2 R2]]]]; auto.
    + intros x I. apply in_app_or in I. destruct I as [I|[<-|[]]]; auto. apply HL. left; auto.
    + intros x I. apply HL. right; auto.
    + exists d2. unfold DrawingModel.mbind. rewrite E1. rewrite <- app_assoc in S2. split; auto. split; auto. split; congruence.
Qed.

Lemma state_frame : forall D d d', points d' = points d -> segments d' = segments d -> state D d -> state D d'.
Proof.
  intros D d d' HP HS [S1 [S2 [S3 S4]]]. split; [rewrite HP; auto|]. split; [rewrite HP; auto|]. split; [rewrite HP, HS; auto|].
  intros a b I. unfold stored. rewrite HP, HS. apply S4; auto.
Qed.
Lemma call_ok : forall c D d, plain c -> incl D E -> incl (outline_edges c) E -> state D d ->
  exists d', exec ROps lm A peq c d = (d', Ok tt) /\ state (D ++ outline_edges c) d' /\
    polygons d' = polygons d ++ outlines [c] /\ map fst (regions d') = map fst (regions d) ++ map fst (seeds [c]).
Proof.
  intros c D d PC HD HC S.
  assert (OUT : is_outline c -> outlines [c] = [outline_vertices c] -> seeds [c] = [] -> match c with DrawPolygon l => l <> [] /\ is_u32 (length l) | _ => True end ->
    exists d', exec ROps lm A peq c d = (d', Ok tt) /\ state (D ++ outline_edges c) d' /\
    polygons d' = polygons d ++ outlines [c] /\ map fst (regions d') = map fst (regions d) ++ map fst (seeds [c])).
  { intros OC OV SV HP. rewrite (exec_run lm A peq exact c d OC HP). unfold DrawingModel.mbind.
    destruct (run_ok (outline_edges c) D d HD HC S) as [d1 [E1 [S1 [P1 R1]]]]. rewrite E1. eexists. split; [reflexivity|].
    split; [apply (state_frame _ d1); auto|]. cbn [polygons regions]. rewrite OV, SV, P1, R1. cbn [map]. rewrite app_nil_r. auto. }
  destruct c as [p q|p w h|p r n|l|p v|p| |v]; cbn [plain] in PC; try contradiction; try (apply OUT; cbn; solve [auto]).
  cbn [outline_edges exec]. rewrite ?app_nil_r. unfold drawRegion, getRegionId, DrawingModel.mbind, mget, mput, mret. cbn [seeds outlines flat_map map app].
  destruct (find_prop A peq (region_map d) 0 v) as [i|]; cbv zeta; eexists; (split; [reflexivity|]); (split; [apply (state_frame _ d); auto|]); cbn [polygons regions]; rewrite ?app_nil_r, ?map_app; auto.
Qed.
Lemma all_ok : forall cs D d, Forall plain cs -> incl D E -> incl (all_edges cs) E -> state D d ->
  exists d', draw_all ROps lm A peq cs d = (d', Ok tt) /\ state (D ++ all_edges cs) d' /\
    polygons d' = polygons d ++ outlines cs /\ map fst (regions d') = map fst (regions d) ++ map fst (seeds cs).
Proof.
  induction cs as [|c cs IH]; intros D d F HD HC S; cbn [draw_all].
  - exists d. cbn. rewrite !app_nil_r. auto.
  - inversion F; subst. cbn [all_edges flat_map] in HC. apply incl_app_inv in HC. destruct HC as [HC HR].
    destruct (call_ok c D d) as [d1 [E1 [S1 [P1 R1]]]]; auto. rewrite E1.
    destruct (IH (D ++ outline_edges c) d1) as [d2 [E2 [S2 [P2 R2]]]]; auto; [apply incl_app; auto|].
    exists d2. split; auto. split; [cbn [all_edges flat_map]; rewrite app_assoc; auto|].
    assert (O1 : outlines (c :: cs) = outlines [c] ++ outlines cs) by (unfold outlines; cbn [flat_map]; rewrite app_nil_r; auto).
    assert (O2 : seeds (c :: cs) = seeds [c] ++ seeds cs) by (unfold seeds; cbn [flat_map]; rewrite app_nil_r; auto).
    rewrite O1, O2, map_app, !app_assoc. split; congruence.
Qed.
End Plane.

Theorem plane_accepted : forall (lm : libm ROps) (A : Type) (peq : A -> A -> bool), exact_libm lm ->
  forall cs : list (call ROps A), Forall plain cs -> plane (all_edges cs) ->
  exists d, draw_all ROps lm A peq cs (empty_drawing ROps A) = (d, Ok tt) /\ well_formed d /\
    NoDup (points d) /\ (forall p, In p (points d) <-> ends (all_edges cs) p) /\
    (forall a b, stored d a b \/ stored d b a <-> In (a, b) (all_edges cs) \/ In (b, a) (all_edges cs)) /\
    polygons d = outlines cs /\ map fst (regions d) = map fst (seeds cs).
Proof.
  intros lm A peq EX cs F PL.
  destruct (all_ok lm A peq EX (all_edges cs) PL cs [] (empty_drawing ROps A)) as [d [E1 [[S1 [S2 [S3 S4]]] [P1 R1]]]]; auto.
  - intros x [].
  - apply incl_refl.
  - split; [constructor|]. split; [|split; [intros s []|intros a b []]]. intros p. cbn. split; [tauto|]. intros [q [[]|[]]].
  - exists d. cbn [app] in *. split; auto. split.
    { apply (reached_wf ROps lm A peq total_ROps). assert (G : forall cs d0, reached ROps lm A peq d0 -> draw_all ROps lm A peq cs d0 = (d, Ok tt) -> reached ROps lm A peq d).
      { clear. induction cs as [|c cs IH]; intros d0 R H; cbn [draw_all] in H; [injection H as <-; auto|].
        destruct (exec ROps lm A peq c d0) as [d1 [[]|s|s|s]] eqn:EC; try discriminate. apply (IH d1); auto. eapply reached_call; eauto. intros [s K]. discriminate. }
      apply (G cs (empty_drawing ROps A)); auto. constructor. }
    split; auto. split; auto. split; [|split; auto].
    intros a b. split.
    + assert (G : forall x y, stored d x y -> In (x, y) (all_edges cs)).
      { intros x y [s [Is [G1 G2]]]. destruct (S3 s Is) as [u [v [Hu [Hv I]]]]. rewrite Hu in G1. rewrite Hv in G2. injection G1 as <-. injection G2 as <-. auto. }
      intros [H|H]; apply G in H; auto.
    + intros [H|H]; apply S4 in H; tauto.
Qed.
