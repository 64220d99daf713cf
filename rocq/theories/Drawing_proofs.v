(** Proofs about the drawing code for every scalar type (C27, C29, C31, C34). *)
From Coq Require Import String.
From Coq Require Import List Arith ZArith NArith Bool Lia.
From Verif Require Import Base AlgebraModel SolversSpec GeometryModel GeometrySpec DrawingModel DrawingSpec.
Import ListNotations.

Section D.
Variable o : Ops.
Variable lm : libm o.
Variable A : Type.
Variable peq : A -> A -> bool.
Notation drawing := (drawing o A).
Notation M := (M o A).
Notation mbind := (DrawingModel.mbind o A).

(** ** a small program logic *)
Definition hoare {X} (P : drawing -> Prop) (c : M X) (Q : X -> drawing -> Prop) (E : drawing -> Prop) : Prop :=
  forall d, P d -> match c d with (d', Ok x) => Q x d' | (d', UB _) => False | (d', Throw _) => E d' | (d', NonFin _) => E d' end.
Lemma h_bind : forall X Y (P : drawing -> Prop) (c : M X) (Q : X -> drawing -> Prop) (k : X -> M Y) (S : Y -> drawing -> Prop) E,
  hoare P c Q E -> (forall x, hoare (Q x) (k x) S E) -> hoare P (mbind c k) S E.
Proof.
  intros X Y P c Q k S E H1 H2 d Hd. unfold DrawingModel.mbind. specialize (H1 d Hd). destruct (c d) as [d' [x|s|s|s]]; auto.
  apply H2; auto.
Qed.
Lemma h_lift : forall X (P : drawing -> Prop) (r : res X) (Q : X -> drawing -> Prop) (E : drawing -> Prop),
  (forall d, P d -> ~ is_ub r) -> (forall d x, P d -> r = Ok x -> Q x d) -> (forall d, P d -> E d) -> hoare P (mlift o A r) Q E.
Proof.
  intros X P r Q E H1 H2 H3 d Hd. unfold mlift. destruct r; auto. apply (H1 d); auto. eexists; eauto.
Qed.
Lemma h_get : forall (P : drawing -> Prop) (Q : drawing -> drawing -> Prop) E, (forall d, P d -> Q d d) -> hoare P (mget o A) Q E.
Proof. intros P Q E H d Hd. simpl. auto. Qed.
Lemma h_put : forall (P : drawing -> Prop) d0 (Q : unit -> drawing -> Prop) E, (forall d, P d -> Q tt d0) -> hoare P (mput o A d0) Q E.
Proof. intros P d0 Q E H d Hd. simpl. eauto. Qed.
Lemma h_ret : forall X (P : drawing -> Prop) (x : X) (Q : X -> drawing -> Prop) E, (forall d, P d -> Q x d) -> hoare P (mret o A x) Q E.
Proof. intros X P x Q E H d Hd. simpl. auto. Qed.
Lemma h_pre : forall X (P P' : drawing -> Prop) (c : M X) Q E, hoare P' c Q E -> (forall d, P d -> P' d) -> hoare P c Q E.
Proof. intros X P P' c Q E H H1 d Hd. apply H; auto. Qed.
Lemma h_post : forall X (P : drawing -> Prop) (c : M X) (Q Q' : X -> drawing -> Prop) E, hoare P c Q' E -> (forall x d, Q' x d -> Q x d) -> hoare P c Q E.
Proof. intros X P c Q Q' E H H1 d Hd. specialize (H d Hd). destruct (c d) as [d' [x|s|s|s]]; auto. Qed.

(** ** relations between the drawing before and after a call, whatever the outcome *)
Definition rel {X} (R : drawing -> drawing -> Prop) (c : M X) : Prop := forall d, R d (fst (c d)).
Definition preorder (R : drawing -> drawing -> Prop) : Prop := (forall d, R d d) /\ (forall a b c, R a b -> R b c -> R a c).
Lemma r_bind : forall X Y R (c : M X) (k : X -> M Y), preorder R -> rel R c -> (forall x, rel R (k x)) -> rel R (mbind c k).
Proof.
  intros X Y R c k [Hr Ht] H1 H2 d. unfold DrawingModel.mbind. specialize (H1 d). destruct (c d) as [d' [x|s|s|s]]; simpl in *; auto.
  eapply Ht; [apply H1|apply H2].
Qed.
Lemma r_lift : forall X R (r : res X), preorder R -> rel R (mlift o A r).
Proof. intros X R r [H _] d. apply H. Qed.
Lemma r_get : forall R, preorder R -> rel R (mget o A).
Proof. intros R [H _] d. apply H. Qed.
Lemma r_ret : forall X R (x : X), preorder R -> rel R (mret o A x).
Proof. intros X R x [H _] d. apply H. Qed.

Lemma oap_pre : preorder (@only_adds_points o A).
Proof.
  split.
  - intros d. unfold only_adds_points. repeat split; auto. exists []. rewrite app_nil_r. auto.
  - intros a b c [[l1 H1] [H2 [H3 [H4 H5]]]] [[l2 K1] [K2 [K3 [K4 K5]]]]. unfold only_adds_points.
    repeat split; try congruence. exists (l1 ++ l2). rewrite K1, H1, app_assoc. auto.
Qed.
Lemma oa_pre : preorder (@only_adds o A).
Proof.
  split.
  - intros d. unfold only_adds. repeat split; auto; exists []; rewrite app_nil_r; auto.
  - intros a b c [[l1 H1] [[l2 H2] [H3 [H4 H5]]]] [[l3 K1] [[l4 K2] [K3 [K4 K5]]]]. unfold only_adds. repeat split; try congruence.
    + exists (l1 ++ l3). rewrite K1, H1, app_assoc. auto.
    + exists (l2 ++ l4). rewrite K2, H2, app_assoc. auto.
Qed.
Lemma oap_oa : forall d d' : drawing, only_adds_points d d' -> only_adds d d'.
Proof. intros d d' [H1 [H2 [H3 [H4 H5]]]]. split; auto. split; auto. exists []. rewrite app_nil_r. auto. Qed.
Lemma r_push_point : forall p, rel (@only_adds_points o A) (push_point o A p).
Proof. intros p d. unfold only_adds_points. simpl. repeat split; auto. exists [p]. auto. Qed.
Lemma r_push_segment : forall s, rel (@only_adds o A) (push_segment o A s).
Proof. intros s d. unfold only_adds. simpl. repeat split; auto; [exists []; rewrite app_nil_r|exists [s]]; auto. Qed.
Lemma r_weaken : forall X (c : M X), rel (@only_adds_points o A) c -> rel (@only_adds o A) c.
Proof. intros X c H d. apply oap_oa. auto. Qed.

Ltac rstp := first
  [ apply r_push_point | apply r_weaken, r_push_point | apply r_push_segment
  | apply r_bind; [apply oa_pre || apply oap_pre| |intros]
  | apply r_lift; (apply oa_pre || apply oap_pre)
  | apply r_get; (apply oa_pre || apply oap_pre)
  | apply r_ret; (apply oa_pre || apply oap_pre) ].

Lemma r_drawSegment : forall p1 p2, rel (@only_adds o A) (drawSegment o lm A p1 p2).
Proof.
  intros p1 p2. unfold drawSegment. repeat (rstp || match goal with |- rel _ (match ?x with _ => _ end) => destruct x end).
Qed.

(** the points and segments after an outline call that did not finish *)
Definition failed_ok (R : drawing -> drawing -> Prop) {X} (c : M X) : Prop :=
  forall d, match c d with (d', Ok _) => True | (d', _) => R d d' end.
Lemma f_bind : forall X Y R (c : M X) (k : X -> M Y), preorder R -> rel R c -> (forall x, failed_ok R (k x)) -> failed_ok R (mbind c k).
Proof.
  intros X Y R c k [Hr Ht] H1 H2 d. unfold DrawingModel.mbind. specialize (H1 d). destruct (c d) as [d' [x|s|s|s]]; simpl in *; auto.
  specialize (H2 x d'). destruct (k x d') as [d2 [y|s|s|s]]; eauto.
Qed.
Lemma f_rel : forall X R (c : M X), rel R c -> failed_ok R c.
Proof. intros X R c H d. specialize (H d). destruct (c d) as [d' [x|s|s|s]]; auto. Qed.
Lemma f_push_polygon : forall R l, failed_ok R (push_polygon o A l).
Proof. intros R l d. simpl. auto. Qed.

Lemma r_circle_loop : forall p radius step n angle p1 mine, rel (@only_adds o A) (circle_loop o lm A p radius step n angle p1 mine).
Proof.
  intros p radius step n. induction n as [|n IH]; intros; cbn [circle_loop]; cbv zeta; [rstp|].
  apply r_bind; [apply oa_pre|apply r_drawSegment|]. intros. apply IH.
Qed.
Lemma r_polygon_loop : forall l n a, rel (@only_adds o A) (polygon_loop o lm A l n a).
Proof.
  intros l n. induction n as [|n IH]; intros a; cbn [polygon_loop]; [rstp|].
  repeat (apply r_drawSegment || apply IH || rstp).
Qed.
Lemma outline_fail : forall c, is_outline c -> failed_ok (@only_adds o A) (exec o lm A peq c).
Proof.
  intros c H. destruct c; simpl in H; try contradiction; cbn [exec].
  - unfold drawRectangle. repeat (apply f_bind; [apply oa_pre|apply r_drawSegment|intros]). apply f_push_polygon.
  - unfold drawRectangleWH, drawRectangle. repeat (apply f_bind; [apply oa_pre|apply r_drawSegment|intros]). apply f_push_polygon.
  - unfold drawCircle. destruct n_segments; [apply f_push_polygon|].
    apply f_bind; [apply oa_pre|apply r_lift, oa_pre|intros]. apply f_bind; [apply oa_pre|apply r_circle_loop|intros]. apply f_push_polygon.
  - unfold drawPolygon. cbv zeta. apply f_bind; [apply oa_pre|apply r_polygon_loop|intros].
    apply f_bind; [apply oa_pre|apply r_lift, oa_pre|intros]. apply f_bind; [apply oa_pre|apply r_lift, oa_pre|intros].
    apply f_bind; [apply oa_pre|apply r_drawSegment|intros]. apply f_push_polygon.
Qed.

(** ** refinement (C34) *)
Lemma r_candidates : forall c eps segs n j, rel (@only_adds_points o A) (candidates o lm A c eps segs n j).
Proof.
  intros c eps segs n. induction n as [|n IH]; intros j; cbn [candidates]; cbv zeta; [rstp|].
  repeat (apply IH || match goal with |- rel _ (if ?x then _ else _) => destruct x end || rstp).
Qed.
Lemma r_refine_loop : forall eps n i, rel (@only_adds_points o A) (refine_loop o lm A eps n i).
Proof.
  intros eps n. induction n as [|n IH]; intros i; cbn [refine_loop]; cbv zeta; [rstp|].
  repeat (apply IH || apply r_candidates || match goal with |- rel _ (if ?x then _ else _) => destruct x end || rstp).
Qed.
Lemma r_refine : rel (@only_adds_points o A) (addRefiningPoints o lm A).
Proof. unfold addRefiningPoints. repeat (apply r_refine_loop || rstp). Qed.
Variable mag : A -> vec o.
Lemma r_edge_points : forall g p1 p2 nrm bound total n j, rel (@only_adds_points o A) (edge_points o A g p1 p2 nrm bound total n j).
Proof.
  intros g p1 p2 nrm bound total n. induction n as [|n IH]; intros j; cbn [edge_points]; cbv zeta; [rstp|].
  repeat (apply IH || match goal with |- rel _ (if ?x then _ else _) => destruct x end || rstp).
Qed.
Lemma r_magnet_edges : forall g n i, rel (@only_adds_points o A) (magnet_edges o lm A g n i).
Proof.
  intros g n. induction n as [|n IH]; intros i; cbn [magnet_edges]; cbv zeta; [rstp|].
  repeat (apply IH || apply r_edge_points || rstp).
Qed.
Lemma r_all_magnets : forall l, rel (@only_adds_points o A) (all_magnets o lm A l).
Proof. induction l as [|g l IH]; cbn [all_magnets]; [rstp|]. repeat (apply r_magnet_edges || apply IH || rstp). Qed.
Lemma r_refine_magnets : rel (@only_adds_points o A) (refineMeshAroundMagnets o lm A mag).
Proof. unfold refineMeshAroundMagnets. repeat (apply r_all_magnets || rstp). Qed.

(** refinement around magnets adds points inside magnets only *)
Definition adds (Q : vec o -> Prop) (d d' : drawing) : Prop := exists l, points d' = points d ++ l /\ Forall Q l.
Lemma adds_pre : forall Q, preorder (adds Q).
Proof.
  intros Q. split.
  - intros d. exists []. rewrite app_nil_r. auto.
  - intros a b c [l1 [H1 F1]] [l2 [H2 F2]]. exists (l1 ++ l2). rewrite H2, H1, app_assoc. split; auto. apply Forall_app. auto.
Qed.
Lemma adds_push : forall (Q : vec o -> Prop) p, Q p -> rel (adds Q) (push_point o A p).
Proof. intros Q p H d. exists [p]. cbn. auto. Qed.
Lemma r_bind_lift : forall X Y R (r : res X) (k : X -> M Y), preorder R -> (forall x, r = Ok x -> rel R (k x)) -> rel R (mbind (mlift o A r) k).
Proof. intros X Y R r k [Hr Ht] H d. unfold DrawingModel.mbind, mlift. destruct r; cbn; auto. apply H; auto. Qed.
Lemma r_edge_inside : forall g p1 p2 nrm bound total n j, rel (adds (fun q => poly_contains o g q = true)) (edge_points o A g p1 p2 nrm bound total n j).
Proof.
  intros g p1 p2 nrm bound total n. induction n as [|n IH]; intros j; cbn [edge_points]; cbv zeta; [apply r_ret, adds_pre|].
  apply r_bind_lift; [apply adds_pre|intros t _]. apply r_bind; [apply adds_pre|apply r_get, adds_pre|intros d].
  set (a := vadd o (lerp o p1 p2 t) nrm). set (b := vminus o (lerp o p1 p2 t) nrm).
  apply r_bind_lift; [apply adds_pre|intros oka Ha]. apply r_bind_lift; [apply adds_pre|intros okb Hb].
  assert (Ia : oka = true -> poly_contains o g a = true) by (intros ->; destruct (poly_contains o g a); auto; discriminate).
  assert (Ib : okb = true -> poly_contains o g b = true) by (intros ->; destruct (poly_contains o g b); auto; discriminate).
  apply r_bind; [apply adds_pre|destruct oka; [apply adds_push; auto|apply r_ret, adds_pre]|intros _].
  apply r_bind; [apply adds_pre|destruct okb; [apply adds_push; auto|apply r_ret, adds_pre]|intros _]. apply IH.
Qed.
Lemma r_magnet_inside : forall g n i, rel (adds (fun q => poly_contains o g q = true)) (magnet_edges o lm A g n i).
Proof.
  intros g n. induction n as [|n IH]; intros i; cbn [magnet_edges]; cbv zeta; [apply r_ret, adds_pre|].
  repeat (apply r_bind; [apply adds_pre|first [apply r_edge_inside|apply r_lift, adds_pre|apply r_get, adds_pre]|intros]). apply IH.
Qed.
Lemma r_all_inside : forall l, rel (adds (fun q => exists g, In g l /\ poly_contains o g q = true)) (all_magnets o lm A l).
Proof.
  induction l as [|g l IH]; cbn [all_magnets]; [apply r_ret, adds_pre|].
  apply r_bind; [apply adds_pre| |intros _].
  - intros d. destruct (r_magnet_inside g (length g) 0 d) as [new [E F]]. exists new. split; auto. eapply Forall_impl; eauto. intros q Hq. exists g. split; [left; auto|auto].
  - intros d. destruct (IH d) as [new [E F]]. exists new. split; auto. eapply Forall_impl; eauto. intros q [h [H1 H2]]. exists h. split; [right; auto|auto].
Qed.
Lemma push_in : forall m id g k l h, In (k, l) (magmap_push o m id g) -> In h l -> (exists l', In (k, l') m /\ In h l') \/ (k = id /\ h = g).
Proof.
  induction m as [|[k0 l0] m IH]; intros id g k l h H Hh; cbn [magmap_push] in H.
  - destruct H as [H|[]]. inversion H; subst. destruct Hh as [<-|[]]. auto.
  - destruct (Nat.eqb k0 id) eqn:E.
    + apply Nat.eqb_eq in E. subst. destruct H as [H|H].
      * inversion H; subst. apply in_app_or in Hh. destruct Hh as [Hh|[<-|[]]]; auto. left. exists l0. split; auto. left; auto.
      * left. exists l. split; auto. right; auto.
    + destruct (Nat.ltb id k0).
      * destruct H as [H|H]; [inversion H; subst; destruct Hh as [<-|[]]; auto|left; exists l; auto].
      * destruct H as [H|H]; [left; exists l; split; auto; left; auto|].
        destruct (IH _ _ _ _ _ H Hh) as [[l' [L1 L2]]|K]; auto. left. exists l'. split; auto. right; auto.
Qed.
Lemma magpoly_in : forall (d : drawing) rs m m', (forall r, In r rs -> In r (regions d)) ->
  (forall k l g, In (k, l) m -> In g l -> magnet_outline mag d g) -> mag_polygons o A mag (region_map d) (polygons d) rs m = Ok m' ->
  forall k l g, In (k, l) m' -> In g l -> magnet_outline mag d g.
Proof.
  intros d. induction rs as [|r rs IH]; intros m m' Hr Hm H; cbn [mag_polygons] in H.
  - inversion H; subst. auto.
  - destruct (get (region_map d) (snd r)) as [v|s|s|s] eqn:G; try discriminate. cbn [bind] in H.
    destruct (vec_neqb o (mag v) (vzero o)) as [b|s|s|s] eqn:E; try discriminate. cbn [bind] in H.
    eapply IH; [intros; apply Hr; right; auto| |exact H]. destruct b; auto.
    assert (Nv : nth_error (region_map d) (snd r) = Some v) by (unfold get in G; destruct (nth_error (region_map d) (snd r)); congruence).
    assert (FO : forall ps m0, (forall p, In p ps -> In p (polygons d)) -> (forall k l g, In (k, l) m0 -> In g l -> magnet_outline mag d g) ->
      forall k l g, In (k, l) (fold_left (fun m g => if poly_contains o g (fst r) then magmap_push o m (snd r) g else m) ps m0) -> In g l -> magnet_outline mag d g).
    { induction ps as [|p ps IHp]; intros m0 Hp H0; cbn [fold_left]; auto. apply IHp; [intros; apply Hp; right; auto|].
      destruct (poly_contains o p (fst r)) eqn:C; auto. intros k l g Hk Hg. destruct (push_in _ _ _ _ _ _ Hk Hg) as [[l' [L1 L2]]|[-> ->]]; eauto.
      split; [apply Hp; left; auto|]. exists r, v. split; [apply Hr; left; auto|]. auto. }
    apply FO; auto.
Qed.
Lemma pick_in : forall all l acc r, pick_magnets o all l acc = Ok r -> forall g, In g r -> In g acc \/ In g l.
Proof.
  intros all. induction l as [|h l IH]; intros acc r H g Hg; cbn [pick_magnets] in H; [inversion H; subst; auto|].
  destruct (is_magnet o h all) as [b|s|s|s]; try discriminate. cbn [bind] in H. destruct (IH _ _ H g Hg) as [K|K]; [|right; right; auto].
  destruct b; auto. apply in_app_or in K. destruct K as [K|[<-|[]]]; auto. right; left; auto.
Qed.
Lemma collect_in : forall m acc r, collect_magnets o m acc = Ok r -> forall g, In g r -> In g acc \/ exists k l, In (k, l) m /\ In g l.
Proof.
  induction m as [|[k l] m IH]; intros acc r H g Hg; cbn [collect_magnets] in H; [inversion H; subst; auto|].
  assert (ST : forall acc', collect_magnets o m acc' = Ok r -> (In g acc' -> In g acc \/ In g l) -> In g acc \/ exists k0 l0, In (k0, l0) ((k, l) :: m) /\ In g l0).
  { intros acc' H' Ha. destruct (IH _ _ H' g Hg) as [K|[k' [l' [K1 K2]]]]; [destruct (Ha K); auto; right; exists k, l; split; [left; auto|auto]|].
    right. exists k', l'. split; [right; auto|auto]. }
  assert (PK : forall acc', pick_magnets o l l acc = Ok acc' -> In g acc' -> In g acc \/ In g l) by (intros acc' P Hi; eapply pick_in; eauto).
  destruct l as [|h [|h2 l2]].
  - cbn in H. apply (ST acc); auto.
  - apply (ST _ H). intros K. apply in_app_or in K. destruct K as [K|K]; auto. right. left. symmetry. eapply repeat_spec; eauto.
  - destruct (pick_magnets o (h :: h2 :: l2) (h :: h2 :: l2) acc) as [acc'|s|s|s]; try discriminate. cbn [bind] in H. apply (ST _ H). apply PK. auto.
Qed.
Lemma magnets_inside : forall d d' r, refineMeshAroundMagnets o lm A mag d = (d', r) ->
  exists new, points d' = points d ++ new /\ forall p, In p new -> exists g, magnet_outline mag d g /\ poly_contains o g p = true.
Proof.
  intros d d' r H. unfold refineMeshAroundMagnets in H. unfold DrawingModel.mbind at 1, mget at 1 in H. unfold DrawingModel.mbind at 1, mlift at 1 in H.
  destruct (magnets_of o A mag d) as [l|s|s|s] eqn:E.
  2-4: inversion H; subst; exists []; rewrite app_nil_r; split; [auto|intros p []].
  destruct (r_all_inside l d) as [new [E1 F]]. rewrite H in E1. cbn [fst] in E1. exists new. split; auto. intros p Hp.
  rewrite Forall_forall in F. destruct (F p Hp) as [g [Hg Hc]]. exists g. split; auto.
  unfold magnets_of in E. destruct (mag_polygons o A mag (region_map d) (polygons d) (regions d) []) as [m|s|s|s] eqn:Em; try discriminate. cbn [bind] in E.
  destruct (collect_in _ _ _ E g Hg) as [[]|[k [l' [K1 K2]]]]. eapply (magpoly_in d (regions d) [] m); eauto. intros k0 l0 g0 [].
Qed.

(** ** the end-point look-up *)
Lemma find_point_spec : forall l i p f r, find_point o l i p f = Ok r ->
  (r = f /\ forall q, In q l -> vec_eqb o q p = Ok false) \/
  (exists k q, r = Some (i + k) /\ nth_error l k = Some q /\ vec_eqb o q p = Ok true).
Proof.
  induction l as [|q l IH]; intros i p f r H; cbn [find_point] in H.
  - left. inversion H; subst. split; auto. intros q [].
  - destruct (vec_eqb o q p) as [b|s|s|s] eqn:E; simpl in H; try discriminate.
    destruct (IH _ _ _ _ H) as [[H1 H2]|[k [q' [H1 [H2 H3]]]]].
    + destruct b.
      * right. exists 0, q. rewrite Nat.add_0_r. auto.
      * left. split; auto. intros q' [->|Hq]; auto.
    + right. exists (S k), q'. rewrite H1. split; [f_equal; lia|auto].
Qed.

Definition matches (q p : vec o) : Prop := vec_eqb o q p = Ok true.
(** where an end point ends up: at index [i] of the list followed by [l] *)
Definition placed (pts : list (vec o)) (start : list (vec o)) (p : vec o) (i : nat) (l : list (vec o)) : Prop :=
  (l = [] /\ exists q, nth_error pts i = Some q /\ matches q p) \/
  (l = [p] /\ i = length start /\ forall q, In q pts -> vec_eqb o q p = Ok false).

Definition after (d : drawing) (pts : list (vec o)) (segs : list (nat * nat)) : drawing :=
  mkD (region_map d) (regions d) pts segs (polygons d).
Definition stuck {X} (r : res X) : Prop := match r with Ok _ => False | _ => True end.

Lemma drawSegment_cases : forall p1 p2 d d' r, drawSegment o lm A p1 p2 d = (d', r) ->
  (d' = d /\ exists p, (p = p1 \/ p = p2) /\ exists e, stuck e /\ find_point o (points d) 0 p None = e /\
      match e with Ok _ => True | Throw s => r = Throw s | UB s => r = UB s | NonFin s => r = NonFin s end) \/
  (exists i1 i2 l1 l2, placed (points d) (points d) p1 i1 l1 /\ placed (points d) (points d ++ l1) p2 i2 l2 /\
    let pts := points d ++ l1 ++ l2 in
    match check_segments o lm pts p1 p2 (i1, i2) (segments d) with
    | Ok true => d' = after d pts (segments d ++ [(i1, i2)]) /\ r = Ok tt
    | Ok false => d' = after d pts (segments d) /\ r = Ok tt
    | Throw s => d' = after d pts (segments d) /\ r = Throw s
    | UB s => d' = after d pts (segments d) /\ r = UB s
    | NonFin s => d' = after d pts (segments d) /\ r = NonFin s
    end).
Proof.
  intros p1 p2 d d' r H. unfold drawSegment, DrawingModel.mbind, mget, mlift in H.
  destruct (find_point o (points d) 0 p1 None) as [f1|s|s|s] eqn:E1.
  2-4: left; inversion H; subst; split; auto; exists p1; split; auto; rewrite E1; eexists; split; [|split; [reflexivity|reflexivity]]; simpl; auto.
  destruct (find_point o (points d) 0 p2 None) as [f2|s|s|s] eqn:E2.
  2-4: left; inversion H; subst; split; auto; exists p2; split; auto; rewrite E2; eexists; split; [|split; [reflexivity|reflexivity]]; simpl; auto.
  right.
  assert (P1 : forall st, match f1 with Some i => placed (points d) st p1 i [] | None => placed (points d) st p1 (length st) [p1] end).
  { intros st. apply find_point_spec in E1. destruct E1 as [[-> Hn]|[k [q [-> [Hk Hq]]]]].
    - right. auto.
    - left. split; auto. exists q. auto. }
  assert (P2 : forall st, match f2 with Some i => placed (points d) st p2 i [] | None => placed (points d) st p2 (length st) [p2] end).
  { intros st. apply find_point_spec in E2. destruct E2 as [[-> Hn]|[k [q [-> [Hk Hq]]]]].
    - right. auto.
    - left. split; auto. exists q. auto. }
  specialize (P1 (points d)).
  destruct f1 as [i1|], f2 as [i2|]; cbn in H.
  - exists i1, i2, [], []. split; auto. split; [apply P2|]. cbv zeta. cbn [app]. rewrite app_nil_r.
    destruct d as [rm rg ps sg pl]; cbn in *.
    destruct (check_segments o lm ps p1 p2 (i1, i2) sg) as [[]|s|s|s]; inversion H; subst; auto.
  - exists i1, (length (points d ++ [])), [], [p2]. split; auto. split; [apply P2|]. cbv zeta. cbn [app]. rewrite app_nil_r.
    destruct d as [rm rg ps sg pl]; cbn in *.
    destruct (check_segments o lm (ps ++ [p2]) p1 p2 (i1, length ps) sg) as [[]|s|s|s]; inversion H; subst; auto.
  - exists (length (points d)), i2, [p1], []. split; auto. split; [apply P2|]. cbv zeta. cbn [app].
    destruct d as [rm rg ps sg pl]; cbn in *.
    destruct (check_segments o lm (ps ++ [p1]) p1 p2 (length ps, i2) sg) as [[]|s|s|s]; inversion H; subst; auto.
  - exists (length (points d)), (length (points d ++ [p1])), [p1], [p2]. split; auto. split; [apply P2|]. cbv zeta. cbn [app].
    destruct d as [rm rg ps sg pl]; cbn in *.
    rewrite <- app_assoc in H. cbn [app] in H.
    destruct (check_segments o lm (ps ++ [p1; p2]) p1 p2 (length ps, length (ps ++ [p1])) sg) as [[]|s|s|s]; inversion H; subst; auto.
Qed.

(** ** the check loop *)
Lemma same_segment_iff : forall s t, same_segment s t = true <-> same_ends s t.
Proof.
  intros s t. unfold same_segment, same_ends. rewrite orb_true_iff, !andb_true_iff, !Nat.eqb_eq. tauto.
Qed.
Lemma check_no_ub : forall pts p1 p2 new segs, (forall s, In s segs -> fst s < length pts /\ snd s < length pts) ->
  ~ is_ub (check_segments o lm pts p1 p2 new segs).
Proof.
  induction segs as [|s segs IH]; intros H; cbn [check_segments].
  - intros [x E]. discriminate.
  - assert (H' : forall s, In s segs -> fst s < length pts /\ snd s < length pts) by (intros; apply H; right; auto).
    destruct (H s) as [H1 H2]; [left; auto|].
    destruct (same_segment s new); [intros [x E]; discriminate|]. destruct (connected s new); [apply IH; auto|].
    destruct (nth_error pts (fst s)) eqn:N1; [|apply nth_error_None in N1; lia].
    destruct (nth_error pts (snd s)) eqn:N2; [|apply nth_error_None in N2; lia].
    unfold get. rewrite N1, N2. cbn [bind].
    destruct (negb _); [apply IH; auto|]. destruct (segmentsIntersect _ _ _ _ _ _); [intros [x E]; discriminate|apply IH; auto].
Qed.
Lemma check_true : forall pts p1 p2 new segs, check_segments o lm pts p1 p2 new segs = Ok true -> forall s, In s segs -> ~ same_ends s new.
Proof.
  induction segs as [|s segs IH]; intros H t [].
  - subst t. cbn [check_segments] in H. intros E. apply same_segment_iff in E. rewrite E in H. discriminate.
  - apply IH; auto. cbn [check_segments] in H. destruct (same_segment s new); [discriminate|]. destruct (connected s new); auto.
    destruct (get pts (fst s)); try discriminate. destruct (get pts (snd s)); try discriminate. cbn [bind] in H.
    destruct (negb _); auto. destruct (segmentsIntersect _ _ _ _ _ _); [discriminate|auto].
Qed.
Lemma check_false : forall pts p1 p2 new segs, check_segments o lm pts p1 p2 new segs = Ok false -> exists s, In s segs /\ same_ends s new.
Proof.
  induction segs as [|s segs IH]; intros H; cbn [check_segments] in H; [discriminate|].
  destruct (same_segment s new) eqn:E. { exists s. split; [left; auto|]. apply same_segment_iff; auto. }
  assert (G : check_segments o lm pts p1 p2 new segs = Ok false -> exists s', In s' (s :: segs) /\ same_ends s' new).
  { intros K. destruct (IH K) as [t [T1 T2]]. exists t. split; auto. right; auto. }
  destruct (connected s new); auto.
  destruct (get pts (fst s)); try discriminate. destruct (get pts (snd s)); try discriminate. cbn [bind] in H.
  destruct (negb _); auto. destruct (segmentsIntersect _ _ _ _ _ _); [discriminate|auto].
Qed.

(** ** C27 *)
Hypothesis tot : scalar_ops_total o.
Lemma div_no_ub : forall a b, ~ is_ub (div o a b).
Proof. intros a b. destruct tot as [H _]. apply H. Qed.
Lemma distance_no_ub : forall p q, ~ is_ub (distance o p q).
Proof. intros. unfold distance. destruct tot as [_ H]. apply H. Qed.
Lemma vec_eqb_no_ub : forall p q, ~ is_ub (vec_eqb o p q).
Proof.
  intros p q [s E]. unfold vec_eqb in E. destruct (distance o p q) as [b|t|t|t] eqn:D; simpl in E; try discriminate.
  apply (distance_no_ub p q). exists t; auto.
Qed.
Lemma find_no_ub : forall l i p f, ~ is_ub (find_point o l i p f).
Proof.
  induction l as [|q l IH]; intros i p f [s E]; cbn [find_point] in E; [discriminate|].
  destruct (vec_eqb o q p) as [b|t|t|t] eqn:D; simpl in E; try discriminate.
  - apply (IH (S i) p (if b then Some i else f)). exists s; auto.
  - apply (vec_eqb_no_ub q p). exists t; auto.
Qed.
Lemma psd_no_ub : forall p a b, ~ is_ub (pointSegmentDistance o p a b).
Proof.
  intros p a b. unfold pointSegmentDistance. destruct (div o _ _) as [x|s|s|s] eqn:D; cbn [bind].
  - destruct (ltb o x (zero o)); [apply distance_no_ub|]. destruct (gtb o x (one o)); apply distance_no_ub.
  - intros [t E]; discriminate.
  - intros _. eapply div_no_ub. exists s. exact D.
  - intros [t E]; discriminate.
Qed.

Lemma wf_points : forall d l, well_formed d -> well_formed (after d (points d ++ l) (segments d)).
Proof.
  intros d l [H1 [H2 H3]]. split; [|split]; cbn; auto. intros s Hs. destruct (H1 s Hs). rewrite app_length. lia.
Qed.
Lemma nth_app_one : forall B (l : list B) x i y, nth_error (l ++ [x]) i = Some y -> nth_error l i = Some y \/ (i = length l /\ y = x).
Proof.
  intros B l x i y H. destruct (Nat.lt_ge_cases i (length l)).
  - rewrite nth_error_app1 in H by auto. auto.
  - rewrite nth_error_app2 in H by auto. destruct (i - length l) as [|k] eqn:E.
    + simpl in H. inversion H. right. split; auto. lia.
    + simpl in H. destruct k; discriminate.
Qed.
Lemma same_ends_sym : forall s t, same_ends s t -> same_ends t s.
Proof. intros s t [[A1 A2]|[A1 A2]]; [left|right]; auto. Qed.

Lemma placed_lt : forall pts l0 p i l, placed pts (pts ++ l0) p i l -> i < length (pts ++ l0 ++ l).
Proof.
  intros pts l0 p i l [[-> [q [H _]]]|[-> [-> _]]].
  - rewrite !app_length. assert (i < length pts) by (apply nth_error_Some; congruence). lia.
  - rewrite !app_length. simpl. lia.
Qed.

Lemma h_drawSegment : forall p1 p2, hoare well_formed (drawSegment o lm A p1 p2) (fun _ => well_formed) well_formed.
Proof.
  intros p1 p2 d Hd. destruct (drawSegment o lm A p1 p2 d) as [d' r] eqn:E. apply drawSegment_cases in E.
  destruct E as [[-> [p [_ [e [St [Ef Hr]]]]]]|[i1 [i2 [l1 [l2 [P1 [P2 Hc]]]]]]].
  - destruct e as [x|s|s|s]; simpl in *; try contradiction; subst r; auto. apply (find_no_ub (points d) 0 p None). exists s; auto.
  - cbv zeta in Hc.
    assert (Hin : forall s, In s (segments d) -> fst s < length (points d ++ l1 ++ l2) /\ snd s < length (points d ++ l1 ++ l2)).
    { intros s Hs. destruct Hd as [H1 _]. destruct (H1 s Hs). rewrite app_length. lia. }
    pose proof (check_no_ub (points d ++ l1 ++ l2) p1 p2 (i1, i2) (segments d) Hin) as NU.
    pose proof (check_true (points d ++ l1 ++ l2) p1 p2 (i1, i2) (segments d)) as CT.
    destruct (check_segments o lm (points d ++ l1 ++ l2) p1 p2 (i1, i2) (segments d)) as [[]|s|s|s].
    + destruct Hc as [-> ->]. specialize (CT eq_refl). destruct Hd as [H1 [H2 H3]]. split; [|split]; cbn; auto.
      * intros s Hs. apply in_app_or in Hs. destruct Hs as [Hs|[<-|[]]]; [apply Hin; auto|]. cbn [fst snd]. split.
        -- assert (P1' : placed (points d) (points d ++ []) p1 i1 l1) by (rewrite app_nil_r; auto).
           apply placed_lt in P1'. cbn [app] in P1'. rewrite !app_length in *. lia.
        -- apply placed_lt in P2. auto.
      * intros i j s t Hs Ht E. apply nth_app_one in Hs. apply nth_app_one in Ht.
        destruct Hs as [Hs|[-> ->]], Ht as [Ht|[-> ->]]; auto.
        -- eapply H2; eauto.
        -- exfalso. apply (CT s); auto. eapply nth_error_In; eauto.
        -- exfalso. apply (CT t); [eapply nth_error_In; eauto|]. apply same_ends_sym; auto.
    + destruct Hc as [-> ->]. apply wf_points; auto.
    + destruct Hc as [-> ->]. apply wf_points; auto.
    + destruct Hc as [-> ->]. apply NU. eexists; eauto.
    + destruct Hc as [-> ->]. apply wf_points; auto.
Qed.

Lemma wf_polygon : forall l, hoare well_formed (push_polygon o A l) (fun _ => well_formed) well_formed.
Proof. intros l d Hd. simpl. destruct Hd as [H1 [H2 H3]]. split; [|split]; cbn; auto. Qed.
Lemma wf_point : forall p, hoare well_formed (push_point o A p) (fun _ => well_formed) well_formed.
Proof. intros p d Hd. simpl. apply wf_points; auto. Qed.
Lemma wf_get : hoare well_formed (mget o A) (fun d d' => d = d' /\ well_formed d') well_formed.
Proof. intros d Hd. simpl. auto. Qed.
Lemma wf_lift : forall X (r : res X), ~ is_ub r -> hoare well_formed (mlift o A r) (fun _ => well_formed) well_formed.
Proof. intros X r H. apply h_lift; auto. Qed.

Lemma wf_circle_loop : forall p radius step n angle p1 mine,
  hoare well_formed (circle_loop o lm A p radius step n angle p1 mine) (fun _ => well_formed) well_formed.
Proof.
  intros p radius step n. induction n as [|n IH]; intros; cbn [circle_loop]; cbv zeta; [apply h_ret; auto|].
  eapply h_bind; [apply h_drawSegment|]. intros []. apply IH.
Qed.
Lemma wf_polygon_loop : forall l n a, a + n < length l -> hoare well_formed (polygon_loop o lm A l n a) (fun _ => well_formed) well_formed.
Proof.
  intros l n. induction n as [|n IH]; intros a H; cbn [polygon_loop]; [apply h_ret; auto|].
  eapply h_bind; [apply wf_lift|intros p]. { intros [s E]. unfold get in E. destruct (nth_error l a) eqn:N; [discriminate|]. apply nth_error_None in N. lia. }
  eapply h_bind; [apply wf_lift|intros q]. { intros [s E]. unfold get in E. destruct (nth_error l (a + 1)) eqn:N; [discriminate|]. apply nth_error_None in N. lia. }
  eapply h_bind; [apply h_drawSegment|]. intros []. apply IH. lia.
Qed.
Lemma get_no_ub : forall X (l : list X) i, i < length l -> ~ is_ub (get l i).
Proof. intros X l i H [s E]. unfold get in E. destruct (nth_error l i) eqn:N; [discriminate|]. apply nth_error_None in N. lia. Qed.
Lemma u32_le : forall n, u32 n <= n.
Proof.
  intros n. unfold u32. assert (N.of_nat n mod two32 <= N.of_nat n)%N by (apply N.mod_le; discriminate). lia.
Qed.
Lemma u32_sub_pos : forall n, n <> 0 -> is_u32 n -> u32_sub n 1 = n - 1.
Proof.
  intros n H1 H2. unfold u32_sub, is_u32, two32 in *. rewrite Z.mod_small; lia.
Qed.
Lemma u32_is : forall n, is_u32 (u32 n).
Proof. intros n. unfold is_u32, u32. rewrite N2Nat.id. apply N.mod_lt. discriminate. Qed.

Lemma wf_candidates : forall c eps segs n j,
  (forall d, hoare (fun d' => d' = d /\ well_formed d /\ forall s, In s segs -> fst s < length (points d) /\ snd s < length (points d))
    (candidates o lm A c eps segs n j) (fun _ => well_formed) well_formed).
Proof.
  intros c eps segs n. induction n as [|n IH]; intros j d0 d [-> [Hw Hs]]; cbn [candidates].
  - simpl. auto.
  - assert (K : hoare (fun d => well_formed d /\ forall s, In s segs -> fst s < length (points d) /\ snd s < length (points d))
       (candidates o lm A c eps segs (S n) j) (fun _ => well_formed) well_formed); [|exact (K d0 (conj Hw Hs))].
    clear d0 Hw Hs. cbn [candidates]. cbv zeta.
    assert (DV : forall a b, ~ is_ub (div o a b)) by (exact div_no_ub).
    eapply h_bind; [apply h_lift with (Q := fun _ d => well_formed d /\ forall s, In s segs -> fst s < length (points d) /\ snd s < length (points d)); auto; tauto|intros angle].
    eapply h_bind; [apply h_lift with (Q := fun _ d => well_formed d /\ forall s, In s segs -> fst s < length (points d) /\ snd s < length (points d)); auto; tauto|intros e].
    eapply h_bind; [apply h_lift with (Q := fun _ d => well_formed d /\ forall s, In s segs -> fst s < length (points d) /\ snd s < length (points d)); auto; tauto|intros b].
    eapply h_bind; [apply h_get with (Q := fun d d' => d' = d /\ well_formed d /\ forall s, In s segs -> fst s < length (points d) /\ snd s < length (points d)); auto|intros d].
    eapply h_bind; [apply h_lift with (Q := fun _ d' => d' = d /\ well_formed d /\ forall s, In s segs -> fst s < length (points d) /\ snd s < length (points d))|intros close].
    + intros d' [_ [Hw Hs]]. clear - tot Hs. induction segs as [|s segs IHs]; intros [x E]; cbn [too_close] in E; [discriminate|].
      destruct (Hs s) as [S1 S2]; [left; auto|].
      pose proof (get_no_ub _ (points d) _ S1) as G1. pose proof (get_no_ub _ (points d) _ S2) as G2.
      destruct (get (points d) (fst s)) as [p1|t|t|t]; cbn [bind] in E; try discriminate; [|apply G1; eexists; eauto].
      destruct (get (points d) (snd s)) as [p2|t|t|t]; cbn [bind] in E; try discriminate; [|apply G2; eexists; eauto].
      match type of E with context [pointSegmentDistance o ?u ?v ?w] => pose proof (psd_no_ub u v w) as G3; destruct (pointSegmentDistance o u v w) as [q|t|t|t] end;
      cbn [bind] in E; try discriminate; [|apply G3; eexists; eauto].
      match type of E with (if ?b then _ else _) = _ => destruct b end; [discriminate|].
      apply IHs; [intros; apply Hs; right; auto|]. eexists; eauto.
    + tauto.
    + intros d' [-> [Hw _]]. auto.
    + apply h_bind with (Q := fun _ d => well_formed d /\ forall s, In s segs -> fst s < length (points d) /\ snd s < length (points d)).
      * destruct (_ && _).
        -- intros d' [-> [Hw Hs]]. simpl. split; [apply wf_points; auto|]. intros s S. destruct (Hs s S). rewrite app_length. lia.
        -- apply h_ret. intros d' [-> H]. auto.
      * intros _ d' [Hw Hs]. apply (IH (S j) d' d'). auto.
Qed.
Lemma sharp_no_ub : forall pts lim l, (forall s, In s l -> fst s < length pts /\ snd s < length pts) -> ~ is_ub (any_sharp o lm pts lim l).
Proof.
  intros pts lim.
  assert (SP : forall s t, fst s < length pts /\ snd s < length pts -> fst t < length pts /\ snd t < length pts -> ~ is_ub (sharp_pair o lm pts lim s t)).
  { intros s t [S1 S2] [T1 T2] [x E]. unfold sharp_pair in E.
    pose proof (get_no_ub _ pts _ S1) as G1. pose proof (get_no_ub _ pts _ S2) as G2. pose proof (get_no_ub _ pts _ T1) as G3. pose proof (get_no_ub _ pts _ T2) as G4.
    destruct (get pts (fst s)) as [p1|y|y|y]; cbn [bind] in E; try discriminate; [|apply G1; eexists; eauto].
    destruct (get pts (snd s)) as [p2|y|y|y]; cbn [bind] in E; try discriminate; [|apply G2; eexists; eauto].
    destruct (get pts (fst t)) as [p3|y|y|y]; cbn [bind] in E; try discriminate; [|apply G3; eexists; eauto].
    destruct (get pts (snd t)) as [p4|y|y|y]; cbn [bind] in E; try discriminate; [|apply G4; eexists; eauto].
    repeat match type of E with context [bind (vec_eqb o ?a ?b) _] =>
      pose proof (vec_eqb_no_ub a b); destruct (vec_eqb o a b) as [[]|y|y|y]; cbn [bind] in E; try discriminate; try (match goal with H : ~ is_ub (UB _) |- _ => apply H; eexists; eauto end) end. }
  induction l as [|s l IH]; intros H; cbn [any_sharp]; [intros [x E]; discriminate|].
  assert (SW : ~ is_ub (sharp_with o lm pts lim s l)).
  { assert (Hs : fst s < length pts /\ snd s < length pts) by (apply H; left; auto).
    assert (Hl : forall t, In t l -> fst t < length pts /\ snd t < length pts) by (intros; apply H; right; auto).
    clear IH H. induction l as [|t l IHl]; cbn [sharp_with]; [intros [x E]; discriminate|].
    intros [x E]. pose proof (SP s t Hs (Hl t (or_introl eq_refl))) as G. destruct (sharp_pair o lm pts lim s t) as [[]|y|y|y]; cbn [bind] in E; try discriminate.
    - apply IHl; [intros; apply Hl; right; auto|]. eexists; eauto.
    - apply G; eexists; eauto. }
  intros [x E]. destruct (sharp_with o lm pts lim s l) as [[]|y|y|y]; cbn [bind] in E; try discriminate.
  - apply IH; [intros; apply H; right; auto|]. eexists; eauto.
  - apply SW; eexists; eauto.
Qed.
Lemma wf_refine_loop : forall eps n i, hoare (fun d => well_formed d /\ i + n <= length (points d)) (refine_loop o lm A eps n i) (fun _ => well_formed) well_formed.
Proof.
  intros eps n. induction n as [|n IH]; intros i; cbn [refine_loop]; cbv zeta.
  - apply h_ret. tauto.
  - eapply h_bind; [apply h_get with (Q := fun d d' => d' = d /\ well_formed d /\ i + S n <= length (points d)); auto|intros d].
    assert (Hc : well_formed d -> forall s, In s (filter (fun s => Nat.eqb (fst s) i || Nat.eqb (snd s) i) (segments d)) -> fst s < length (points d) /\ snd s < length (points d)).
    { intros [H1 _] s Hs. apply filter_In in Hs. apply H1. tauto. }
    set (cs := filter _ _) in *.
    eapply h_bind; [apply h_lift with (Q := fun _ d' => d' = d /\ well_formed d /\ i + S n <= length (points d))|intros third].
    { intros. apply div_no_ub. } { tauto. } { intros d' [-> [H _]]; auto. }
    eapply h_bind; [apply h_lift with (Q := fun _ d' => d' = d /\ well_formed d /\ i + S n <= length (points d))|intros sharp].
    { intros d' [-> [Hw _]]. apply sharp_no_ub. auto. } { tauto. } { intros d' [-> [H _]]; auto. }
    apply h_bind with (Q := fun _ d => well_formed d /\ S i + n <= length (points d)); [|intros _; apply IH].
    destruct sharp.
    + intros d' [-> [Hw Hn]]. unfold DrawingModel.mbind, mlift.
      pose proof (get_no_ub _ (points d) i ltac:(lia)) as G. destruct (get (points d) i) as [c|y|y|y]; [|auto|exfalso; apply G; eexists; eauto|auto].
      pose proof (wf_candidates c eps cs 18 0 d d (conj eq_refl (conj Hw (Hc Hw)))) as K.
      pose proof (r_candidates c eps cs 18 0 d) as RR.
      destruct (candidates o lm A c eps cs 18 0 d) as [d2 [x|y|y|y]]; auto. split; auto.
      cbn [fst] in RR. destruct RR as [[l Hl] _]. rewrite Hl, app_length. lia.
    + apply h_ret. intros d' [-> [H1 H2]]. split; auto. lia.
Qed.
Lemma eps_no_ub : forall d, well_formed d -> ~ is_ub (getCurrentEpsilon o A d).
Proof.
  intros d [Hs _]. unfold getCurrentEpsilon.
  assert (IN : forall i p segs m, (forall s, In s segs -> fst s < length (points d) /\ snd s < length (points d)) -> ~ is_ub (eps_inner o (points d) i p segs m)).
  { intros i p. induction segs as [|s segs IH]; intros m H [x E]; cbn [eps_inner] in E; [discriminate|].
    assert (H' : forall s, In s segs -> fst s < length (points d) /\ snd s < length (points d)) by (intros; apply H; right; auto).
    destruct (_ || _); [eapply IH; eauto; eexists; eauto|].
    destruct (H s (or_introl eq_refl)) as [S1 S2].
    pose proof (get_no_ub _ (points d) _ S1) as G1. pose proof (get_no_ub _ (points d) _ S2) as G2.
    destruct (get (points d) (fst s)) as [p1|t|t|t]; cbn [bind] in E; try discriminate; [|apply G1; eexists; eauto].
    destruct (get (points d) (snd s)) as [p2|t|t|t]; cbn [bind] in E; try discriminate; [|apply G2; eexists; eauto].
    pose proof (psd_no_ub p p1 p2) as G3. destruct (pointSegmentDistance o p p1 p2) as [q|t|t|t]; cbn [bind] in E; try discriminate; [|apply G3; eexists; eauto].
    eapply IH; eauto. eexists; eauto. }
  assert (OUT : forall l i m, ~ is_ub (eps_outer o (points d) (segments d) l i m)); [|apply OUT].
  induction l as [|p l IH]; intros i m [x E]; cbn [eps_outer] in E; [discriminate|].
  pose proof (IN i p (segments d) m Hs) as G. destruct (eps_inner o (points d) i p (segments d) m) as [q|t|t|t]; cbn [bind] in E; try discriminate.
  - eapply IH. eexists; eauto.
  - apply G; eexists; eauto.
Qed.
Lemma wf_refine : hoare well_formed (addRefiningPoints o lm A) (fun _ => well_formed) well_formed.
Proof.
  unfold addRefiningPoints. eapply h_bind; [apply h_get with (Q := fun d d' => d' = d /\ well_formed d); auto|intros d].
  eapply h_bind; [apply h_lift with (Q := fun _ d' => d' = d /\ well_formed d)|intros eps].
  - intros d' [-> H]. apply eps_no_ub; auto.
  - tauto.
  - intros d' [-> H]; auto.
  - eapply h_pre; [apply wf_refine_loop|]. intros d' [-> H]. split; auto.
Qed.

Lemma find_prop_spec : forall l i v, match find_prop A peq l i v with
  | Some k => exists w, i <= k /\ nth_error l (k - i) = Some w /\ peq w v = true /\ forall j u, j < k - i -> nth_error l j = Some u -> peq u v = false
  | None => forall u, In u l -> peq u v = false end.
Proof.
  induction l as [|w l IH]; intros i v; cbn [find_prop].
  - intros u [].
  - destruct (peq w v) eqn:E.
    + exists w. split; [lia|]. rewrite Nat.sub_diag. split; auto. split; auto. intros; lia.
    + specialize (IH (S i) v). destruct (find_prop A peq l (S i) v) as [k|].
      * destruct IH as [u [H1 [H2 [H3 H4]]]]. exists u. split; [lia|]. replace (k - i) with (S (k - S i)) by lia. split; auto. split; auto.
        intros j x Hj Hx. destruct j; simpl in Hx; [inversion Hx; subst; auto|]. eapply H4; eauto. lia.
      * intros u [->|Hu]; auto.
Qed.
Lemma wf_region : forall p v, hoare well_formed (drawRegion o A peq p v) (fun _ => well_formed) well_formed.
Proof.
  intros p v d [H1 [H2 H3]]. unfold drawRegion, getRegionId, DrawingModel.mbind, mget, mput, mret.
  pose proof (find_prop_spec (region_map d) 0 v) as F. destruct (find_prop A peq (region_map d) 0 v) as [k|]; cbn.
  - destruct F as [w [_ [F _]]]. rewrite Nat.sub_0_r in F. split; [|split]; cbn; auto.
    intros r Hr. apply in_app_or in Hr. destruct Hr as [Hr|[<-|[]]]; auto. cbn. apply nth_error_Some. congruence.
  - split; [|split]; cbn; auto. intros r Hr. rewrite app_length. apply in_app_or in Hr. destruct Hr as [Hr|[<-|[]]]; cbn; [specialize (H3 r Hr); lia|lia].
Qed.
Lemma wf_translate : forall v, hoare well_formed (translate o A v) (fun _ => well_formed) well_formed.
Proof.
  intros v d [H1 [H2 H3]]. simpl. split; [|split]; cbn; auto.
  - intros s Hs. rewrite map_length. auto.
  - intros r Hr. apply in_map_iff in Hr. destruct Hr as [r' [<- Hr]]. cbn. auto.
Qed.

Lemma wf_exec : forall c, ~ empty_outline c -> hoare well_formed (exec o lm A peq c) (fun _ => well_formed) well_formed.
Proof.
  intros c Hc. destruct c; cbn [exec].
  - unfold drawRectangle. repeat (eapply h_bind; [apply h_drawSegment|intros []]). apply wf_polygon.
  - unfold drawRectangleWH, drawRectangle. repeat (eapply h_bind; [apply h_drawSegment|intros []]). apply wf_polygon.
  - unfold drawCircle. destruct n_segments; [apply wf_polygon|].
    eapply h_bind; [apply wf_lift, div_no_ub|intros st]. eapply h_bind; [apply wf_circle_loop|intros l]. apply wf_polygon.
  - unfold drawPolygon. cbv zeta. simpl in Hc. pose proof (u32_le (length l)).
    rewrite u32_sub_pos by (auto using u32_is).
    eapply h_bind; [apply wf_polygon_loop; lia|intros []].
    eapply h_bind; [apply wf_lift, get_no_ub; lia|intros p]. eapply h_bind; [apply wf_lift, get_no_ub; lia|intros q].
    eapply h_bind; [apply h_drawSegment|intros []]. apply wf_polygon.
  - apply wf_region.
  - apply wf_point.
  - apply wf_refine.
  - apply wf_translate.
Qed.

(** the empty vertex list *)
Lemma empty_polygon_ub : forall l d, l = [] -> is_ub (snd (drawPolygon o lm A l d)).
Proof.
  intros l d ->. unfold drawPolygon. cbv zeta. cbn [length].
  assert (E : exists k, u32_sub (u32 0) 1 = S k).
  { assert (K : 0 < u32_sub (u32 0) 1).
    { unfold u32_sub. change (u32 0) with 0. assert (0 < (Z.of_nat 0 - Z.of_nat 1) mod 2 ^ 32)%Z by reflexivity. lia. }
    exists (u32_sub (u32 0) 1 - 1). lia. }
  destruct E as [k E]. rewrite E. cbn [polygon_loop]. unfold DrawingModel.mbind, mlift, get. cbn [nth_error snd]. eexists; reflexivity.
Qed.

Lemma reached_wf : forall d, reached o lm A peq d -> well_formed d.
Proof.
  induction 1 as [|d c d' r H IH E NU].
  - split; [|split]; cbn; try tauto. intros i j s t Hs. destruct i; discriminate.
  - assert (D : empty_outline c \/ ~ empty_outline c).
    { destruct c; simpl; auto. destruct (Nat.eq_dec (u32 (length l)) 0); auto. }
    destruct D as [D|D].
    + destruct c; simpl in D; try contradiction. cbn [exec] in E.
      (* the wrapped vertex count is 0: the loop runs over 2^32 - 1 indices of the list *)
      destruct l as [|x l].
      * pose proof (empty_polygon_ub [] d eq_refl) as U. rewrite E in U. contradiction.
      * unfold drawPolygon in E. cbv zeta in E. rewrite D in E.
        pose proof (r_polygon_loop (x :: l) (u32_sub 0 1) 0 d) as RR.
        (* any outcome: the loop only draws segments *)
        assert (WL : forall n a d0, well_formed d0 -> match polygon_loop o lm A (x :: l) n a d0 with (d1, _) => well_formed d1 end).
        { clear - tot. intros n. induction n as [|n IHn]; intros a d0 Hw; cbn [polygon_loop]; [simpl; auto|].
          unfold DrawingModel.mbind at 1. unfold mlift at 1. destruct (get (x :: l) a) as [p|y|y|y]; auto.
          unfold DrawingModel.mbind at 1. unfold mlift at 1. destruct (get (x :: l) (a + 1)) as [q|y|y|y]; auto.
          unfold DrawingModel.mbind at 1. pose proof (h_drawSegment p q d0 Hw) as K. destruct (drawSegment o lm A p q d0) as [d1 [[]|y|y|y]]; auto; try contradiction.
          apply IHn; auto. }
        pose proof (WL (u32_sub 0 1) 0 d IH) as W1. unfold DrawingModel.mbind at 1 in E.
        destruct (polygon_loop o lm A (x :: l) (u32_sub 0 1) 0 d) as [d1 [[]|y|y|y]]; try (inversion E; subst; auto; fail).
        unfold DrawingModel.mbind at 1 in E. unfold mlift at 1 in E. destruct (get (x :: l) (u32_sub 0 1)) as [p|y|y|y]; try (inversion E; subst; auto; fail).
        unfold DrawingModel.mbind at 1 in E. unfold mlift at 1 in E. destruct (get (x :: l) 0) as [q|y|y|y]; try (inversion E; subst; auto; fail).
        unfold DrawingModel.mbind at 1 in E. pose proof (h_drawSegment p q d1 W1) as K. destruct (drawSegment o lm A p q d1) as [d2 [[]|y|y|y]]; try contradiction; (inversion E; subst; auto; fail).
    + pose proof (wf_exec c D d IH) as K. rewrite E in K. destruct r; auto. contradiction.
Qed.

End D.
