(** The points drawn for the interconnections. *)
From Coq Require Import String.
From Coq Require Import List Arith ZArith NArith Bool Lia Reals Lra Permutation.
From Verif Require Import Base SumR AlgebraModel AlgebraSpec GeometryModel GeometrySpec Geometry_proofs Circle_proofs DrawingModel DrawingSpec DrawingR2_proofs MeshModel MeshSpec LayersModel RingSpec.
Import ListNotations.
Local Open Scope R_scope.

Section Rings.
Context {A : Type}.
Variable lm : libm ROps.
Hypothesis exact : exact_libm lm.
Notation drawing := (drawing ROps A).

(** d' is d with the points of l appended *)
Definition grown (d d' : drawing) (l : list pt) : Prop := d' = DrawingModel.with_points ROps A d (points d ++ l).
Definition grow (ds ds' : list drawing) (f : nat -> list pt) : Prop :=
  length ds' = length ds /\ forall l d, nth_error ds l = Some d -> exists d', nth_error ds' l = Some d' /\ grown d d' (f l).
Lemma grow_refl : forall ds, grow ds ds (fun _ => []).
Proof. intros ds. split; auto. intros l d H. exists d. split; auto. unfold grown, DrawingModel.with_points. rewrite app_nil_r. destruct d; auto. Qed.
Lemma grow_trans : forall a b c f g, grow a b f -> grow b c g -> grow a c (fun l => f l ++ g l).
Proof.
  intros a b c f g [L1 H1] [L2 H2]. split; [congruence|]. intros l d H. destruct (H1 l d H) as [d1 [E1 G1]]. destruct (H2 l d1 E1) as [d2 [E2 G2]].
  exists d2. split; auto. unfold grown, DrawingModel.with_points in *. subst. cbn. rewrite app_assoc. auto.
Qed.
Lemma grow_ext : forall a b f g, grow a b f -> (forall l, f l = g l) -> grow a b g.
Proof. intros a b f g [L H] E. split; auto. intros l d D. rewrite <- E. auto. Qed.
Definition at_layer (k : nat) (p : pt) (l : nat) : list pt := if Nat.eqb k l then [p] else [].
Lemma add_point_grow : forall ds k p, (k < length ds)%nat -> exists ds', add_point ROps A ds k p = Ok ds' /\ grow ds ds' (at_layer k p).
Proof using Type.
  clear exact lm. intros ds k p H. unfold add_point, get. destruct (nth_error ds k) as [d|] eqn:E; [|apply nth_error_None in E; lia]. cbn [bind]. unfold set.
  destruct (Nat.ltb k (length ds)) eqn:L; [|apply Nat.ltb_ge in L; lia]. eexists. split; [reflexivity|].
  split; [apply upd_length|]. intros l d' H'. unfold at_layer. destruct (Nat.eqb k l) eqn:Q.
  - apply Nat.eqb_eq in Q. subst l. assert (d' = d) by congruence. subst. exists (DrawingModel.with_points ROps A d (points d ++ [p])). split; [|reflexivity]. apply nth_error_upd_same; auto.
  - apply Nat.eqb_neq in Q. exists d'. split; [rewrite nth_error_upd_other; auto|]. unfold grown, DrawingModel.with_points. rewrite app_nil_r. destruct d'; auto.
Qed.

(** ** the clearance *)
Lemma nth_more : forall X (l m : list X) i x, nth_error l i = Some x -> nth_error (l ++ m) i = Some x.
Proof. intros X l m i x H. rewrite nth_error_app1; auto. apply nth_error_Some. congruence. Qed.
Lemma clearance_R : forall (d d' : drawing) (l : list pt) p segs (e : R), grown d d' l ->
  (forall s, In s segs -> exists a b, nth_error (points d) (fst s) = Some a /\ nth_error (points d) (snd s) = Some b /\ a <> b) ->
  exists c : R, clearance ROps A d' p segs e = Ok c /\
    let dists := fun x => exists s a b, In s segs /\ nth_error (points d) (fst s) = Some a /\ nth_error (points d) (snd s) = Some b /\ segment_distance p a b x in
    c <= e /\ (forall x, dists x -> c <= x) /\ (c = e \/ dists c).
Proof using Type.
  clear exact lm. intros d d' l p segs e G H. revert e. induction segs as [|s segs IH]; intros e; cbn [clearance].
  - exists e. split; auto. cbv zeta. split; [lra|]. split; [intros x [s [a [b [[] _]]]]|auto].
  - destruct (H s (or_introl eq_refl)) as [a [b [E1 [E2 N]]]]. assert (EP : points d' = points d ++ l) by (rewrite G; reflexivity). rewrite EP. unfold get. rewrite (nth_more _ _ _ _ _ E1), (nth_more _ _ _ _ _ E2). cbn [bind].
    destruct (psd_spec p a b N) as [m [P1 P2]]. rewrite P1. cbn [bind]. change (ltb ROps m e) with (Rltb m e).
    destruct (IH (fun t T => H t (or_intror T)) (if Rltb m e then m else e)) as [c [C1 [C2 [C3 C4]]]]. exists c. split; auto. cbv zeta.
    assert (Lc : c <= e /\ c <= m). { destruct (Rltb m e) eqn:L; [apply Rltb_true in L|apply Rltb_false in L]; lra. }
    split; [tauto|]. split.
    + intros x [t [u [v [[<-|T] [T1 [T2 T3]]]]]].
      * rewrite E1 in T1. rewrite E2 in T2. injection T1 as <-. injection T2 as <-. rewrite (segdist_unique p a b x m T3 P2). tauto.
      * apply C3. exists t, u, v. auto.
    + destruct C4 as [C4|[t [u [v [T [T1 [T2 T3]]]]]]].
      * destruct (Rltb m e); [|auto]. right. exists s, a, b. rewrite C4. split; [left; auto|auto].
      * right. exists t, u, v. split; [right; auto|auto].
Qed.
Lemma clearance_ok : forall (d d' : drawing) l p, grown d d' l -> sound d -> exists c : R, clearance ROps A d' p (segments d') (dbl_max ROps) = Ok c /\ clear_of d p c.
Proof using Type.
  clear exact lm. intros d d' l p G S. assert (E : segments d' = segments d) by (rewrite G; reflexivity). rewrite E. apply (clearance_R d d' l p (segments d) (dbl_max ROps) G S).
Qed.
Lemma clear_unique : forall (d : drawing) p c c', clear_of d p c -> clear_of d p c' -> c = c'.
Proof using Type.
  clear exact lm. intros d p c c' [B1 [M1 A1]] [B2 [M2 A2]]. apply Rle_antisym.
  - destruct A2 as [->|A2]; [lra|apply M1; auto].
  - destruct A1 as [->|A1]; [lra|apply M2; auto].
Qed.

(** ** one interconnection *)
Definition ring_at (p : pt) (c : R) (i : nat) : list pt := [circle_vertex p (c / 2) 10 i; circle_vertex p (c / 4) 10 i].
Definition ring_step (k : link ROps) (c1 c2 : R) (i l : nat) : list pt :=
  at_layer (k_layer1 k) (circle_vertex (k_p1 k) (c1 / 2) 10 i) l ++ at_layer (k_layer2 k) (circle_vertex (k_p2 k) (c2 / 2) 10 i) l ++
  at_layer (k_layer1 k) (circle_vertex (k_p1 k) (c1 / 4) 10 i) l ++ at_layer (k_layer2 k) (circle_vertex (k_p2 k) (c2 / 4) 10 i) l.
Lemma ring_point_R : forall p c i (f g : R), g = c * f -> ring_point ROps lm p c (2 * PI * INR i / 10) f = circle_vertex p g 10 i.
Proof using exact.
  intros p c i f g ->. destruct exact as [Es [Ec [Ep Et]]]. unfold ring_point, circle_vertex, vadd, P. cbn [add mul ROps vx vy].
  rewrite Es, Ec. replace (INR 10) with 10 by (cbn; lra). unfold px, py. f_equal; ring.
Qed.
Lemma forM_from_grow : forall (step : nat -> list drawing -> res (list drawing)) (f : nat -> nat -> list pt) L n i ds,
  (forall i ds, length ds = L -> exists ds', step i ds = Ok ds' /\ grow ds ds' (f i)) -> length ds = L ->
  exists ds', forM_from n i step ds = Ok ds' /\ grow ds ds' (fun l => flat_map (fun j => f j l) (seq i n)).
Proof using Type.
  clear exact lm. intros step f L n. induction n as [|n IH]; intros i ds H LE; cbn [forM_from seq flat_map].
  - exists ds. split; auto. apply grow_refl.
  - destruct (H i ds LE) as [d1 [E1 G1]]. rewrite E1. cbn [bind]. destruct (IH (S i) d1 H) as [d2 [E2 G2]]; [destruct G1; congruence|].
    exists d2. split; auto. apply (grow_trans _ _ _ _ _ G1 G2).
Qed.

Definition layers_of (L : nat) (k : link ROps) : Prop := (k_layer1 k < L /\ k_layer2 k < L)%nat.
Lemma draw_link_grow : forall ds (k : link ROps), layers_of (length ds) k -> exists ds', draw_link ROps A k ds = Ok ds' /\ grow ds ds' (ends [k]).
Proof using Type.
  clear exact lm. intros ds k [L1 L2]. unfold draw_link. destruct (add_point_grow ds (k_layer1 k) (k_p1 k) L1) as [d1 [E1 G1]]. rewrite E1. cbn [bind].
  destruct (add_point_grow d1 (k_layer2 k) (k_p2 k)) as [d2 [E2 G2]]; [destruct G1 as [Q _]; rewrite Q; auto|]. exists d2. split; auto.
  apply (grow_ext _ _ _ _ (grow_trans _ _ _ _ _ G1 G2)). intros l. unfold ends. cbn [flat_map]. rewrite app_nil_r. reflexivity.
Qed.
Lemma draw_ring_grow : forall ds0 ds f (k : link ROps), grow ds0 ds f -> layers_of (length ds0) k -> (forall d, In d ds0 -> sound d) ->
  exists ds' d1 d2 (c1 c2 : R), draw_ring ROps A lm k ds = Ok ds' /\ nth_error ds0 (k_layer1 k) = Some d1 /\ nth_error ds0 (k_layer2 k) = Some d2 /\
    clear_of d1 (k_p1 k) c1 /\ clear_of d2 (k_p2 k) c2 /\ grow ds ds' (fun l => flat_map (fun i => ring_step k c1 c2 i l) (seq 0 10)).
Proof using exact.
  intros ds0 ds f k G [L1 L2] S. destruct G as [GL G].
  destruct (nth_error ds0 (k_layer1 k)) as [d1|] eqn:N1; [|apply nth_error_None in N1; lia]. destruct (nth_error ds0 (k_layer2 k)) as [d2|] eqn:N2; [|apply nth_error_None in N2; lia].
  destruct (G _ _ N1) as [e1 [M1 G1]]. destruct (G _ _ N2) as [e2 [M2 G2]].
  destruct (clearance_ok d1 e1 _ (k_p1 k) G1 (S _ (nth_error_In _ _ N1))) as [c1 [C1 D1]]. destruct (clearance_ok d2 e2 _ (k_p2 k) G2 (S _ (nth_error_In _ _ N2))) as [c2 [C2 D2]].
  unfold draw_ring, get. rewrite M1, M2. cbn [bind]. rewrite C1, C2. cbn [bind].
  assert (H2 : div ROps (one ROps) (ofZ ROps 2) = Ok (1 / 2)) by (cbn [div ROps ofZ one]; rewrite Rdivr_ok by lra; auto).
  assert (H4 : div ROps (one ROps) (ofZ ROps 4) = Ok (1 / 4)) by (cbn [div ROps ofZ one]; rewrite Rdivr_ok by lra; auto).
  rewrite H2, H4. cbn [bind]. unfold forM_up.
  match goal with |- exists ds' _ _ _ _, forM_from 10 0 ?step ds = _ /\ _ => destruct (forM_from_grow step (fun i l => ring_step k c1 c2 i l) (length ds0) 10 0 ds) as [ds' [E GG]] end; [|auto|].
  - intros i ds1 LE. assert (HA : div ROps (mul ROps (mul ROps (ofZ ROps 2) (fpi ROps lm)) (ofZ ROps (Z.of_nat i))) (ofZ ROps 10) = Ok (2 * PI * INR i / 10)).
    { destruct exact as [Es [Ec [Ep Et]]]. cbn [div ROps ofZ mul]. rewrite Rdivr_ok by lra. rewrite Ep, <- INR_IZR_INZ. auto. }
    rewrite HA. cbn [bind].
    rewrite (ring_point_R (k_p1 k) c1 i (1 / 2) (c1 / 2)), (ring_point_R (k_p2 k) c2 i (1 / 2) (c2 / 2)), (ring_point_R (k_p1 k) c1 i (1 / 4) (c1 / 4)), (ring_point_R (k_p2 k) c2 i (1 / 4) (c2 / 4)) by field.
    destruct (add_point_grow ds1 (k_layer1 k) (circle_vertex (k_p1 k) (c1 / 2) 10 i)) as [a1 [E1 A1]]; [rewrite LE; auto|]. rewrite E1. cbn [bind]. pose proof A1 as [Q1 _].
    destruct (add_point_grow a1 (k_layer2 k) (circle_vertex (k_p2 k) (c2 / 2) 10 i)) as [a2 [E2 A2]]; [rewrite Q1, LE; auto|]. rewrite E2. cbn [bind]. pose proof A2 as [Q2 _].
    destruct (add_point_grow a2 (k_layer1 k) (circle_vertex (k_p1 k) (c1 / 4) 10 i)) as [a3 [E3 A3]]; [rewrite Q2, Q1, LE; auto|]. rewrite E3. cbn [bind]. pose proof A3 as [Q3 _].
    destruct (add_point_grow a3 (k_layer2 k) (circle_vertex (k_p2 k) (c2 / 4) 10 i)) as [a4 [E4 A4]]; [rewrite Q3, Q2, Q1, LE; auto|]. exists a4. split; auto.
    apply (grow_ext _ _ _ _ (grow_trans _ _ _ _ _ A1 (grow_trans _ _ _ _ _ A2 (grow_trans _ _ _ _ _ A3 A4)))). reflexivity.
  - exists ds', d1, d2, c1, c2. auto 7.
Qed.

(** the points of the rings of one interconnection in layer l *)
Lemma flat_map_app2 : forall X Y (f g : X -> list Y) l, Permutation (flat_map (fun x => f x ++ g x) l) (flat_map f l ++ flat_map g l).
Proof.
  intros X Y f g l. induction l as [|x l IH]; cbn; auto. rewrite IH. rewrite <- !app_assoc. apply Permutation_app_head. rewrite !app_assoc. apply Permutation_app_tail, Permutation_app_comm.
Qed.
Lemma flat_map_nil : forall X Y (l : list X), flat_map (fun _ => @nil Y) l = [].
Proof. intros X Y l. induction l; auto. Qed.
Lemma flat_map_single : forall X Y (f : X -> Y) l, flat_map (fun x => [f x]) l = map f l.
Proof. intros X Y f l. induction l; cbn; f_equal; auto. Qed.
Lemma ring_steps : forall (k : link ROps) c1 c2 l, Permutation (flat_map (fun i => ring_step k c1 c2 i l) (seq 0 10))
  ((if Nat.eqb (k_layer1 k) l then rings (k_p1 k) c1 else []) ++ (if Nat.eqb (k_layer2 k) l then rings (k_p2 k) c2 else [])).
Proof.
  intros k c1 c2 l. unfold ring_step, at_layer. rewrite flat_map_app2, flat_map_app2, flat_map_app2. unfold rings.
  destruct (Nat.eqb (k_layer1 k) l), (Nat.eqb (k_layer2 k) l); rewrite ?flat_map_nil, ?flat_map_single, ?app_nil_r; cbn [app]; auto.
  rewrite <- app_assoc. apply Permutation_app_head. rewrite !app_assoc. apply Permutation_app_tail, Permutation_app_comm.
Qed.

Definition rings_of (d : drawing) (ps : list pt) (new : list pt) : Prop :=
  exists cs, Forall2 (clear_of d) ps cs /\ Permutation new (flat_map (fun pc => rings (fst pc) (snd pc)) (combine ps cs)).
Lemma combine_app' : forall X Y (a : list X) (b : list Y) c d, length a = length b -> combine (a ++ c) (b ++ d) = combine a b ++ combine c d.
Proof. intros X Y a. induction a as [|x a IH]; intros [|y b] c d H; cbn in *; try discriminate; auto. f_equal. apply IH. lia. Qed.
Lemma F2_len : forall X Y (P : X -> Y -> Prop) a b, Forall2 P a b -> length a = length b.
Proof. intros X Y P a b H. induction H; cbn; auto. Qed.
Lemma rings_app : forall d ps qs a b, rings_of d ps a -> rings_of d qs b -> rings_of d (ps ++ qs) (a ++ b).
Proof.
  intros d ps qs a b [cs [C1 C2]] [es [E1 E2]]. exists (cs ++ es). split; [apply Forall2_app; auto|]. rewrite combine_app' by (eapply F2_len; eauto). rewrite flat_map_app. apply Permutation_app; auto.
Qed.
Lemma draw_rings_grow : forall links ds0 ds f, grow ds0 ds f -> Forall (layers_of (length ds0)) links -> (forall d, In d ds0 -> sound d) ->
  exists ds' g, forM_list links (draw_ring ROps A lm) ds = Ok ds' /\ grow ds ds' g /\ forall l d, nth_error ds0 l = Some d -> rings_of d (ends links l) (g l).
Proof using exact.
  induction links as [|k links IH]; intros ds0 ds f G H S; cbn [forM_list].
  - exists ds, (fun _ => []). split; auto. split; [apply grow_refl|]. intros l d D. exists []. split; constructor.
  - inversion H as [|? ? H1 H2]; subst. destruct (draw_ring_grow ds0 ds f k G H1 S) as [d1 [u [v [c1 [c2 [E1 [N1 [N2 [C1 [C2 G1]]]]]]]]]]. rewrite E1. cbn [bind].
    destruct (IH ds0 d1 _ (grow_trans _ _ _ _ _ G G1) H2 S) as [d2 [g [E2 [G2 R2]]]]. exists d2. eexists. split; auto. split; [apply (grow_trans _ _ _ _ _ G1 G2)|]. cbv beta.
    intros l d D. unfold ends. cbn [flat_map]. fold (ends links l). apply rings_app; [|auto].
    exists ((if Nat.eqb (k_layer1 k) l then [c1] else []) ++ (if Nat.eqb (k_layer2 k) l then [c2] else [])).
    split.
    + apply Forall2_app; [destruct (Nat.eqb (k_layer1 k) l) eqn:Q|destruct (Nat.eqb (k_layer2 k) l) eqn:Q]; constructor; auto; apply Nat.eqb_eq in Q; subst; congruence.
    + rewrite ring_steps. destruct (Nat.eqb (k_layer1 k) l), (Nat.eqb (k_layer2 k) l); cbn [app combine flat_map fst snd]; rewrite ?app_nil_r; auto.
Qed.
Lemma draw_ends_grow : forall links ds, Forall (layers_of (length ds)) links -> exists ds', forM_list links (draw_link ROps A) ds = Ok ds' /\ grow ds ds' (ends links).
Proof using Type.
  clear exact lm. induction links as [|k links IH]; intros ds H; cbn [forM_list].
  - exists ds. split; auto. apply grow_refl.
  - inversion H as [|? ? H1 H2]; subst. destruct (draw_link_grow ds k H1) as [d1 [E1 G1]]. rewrite E1. cbn [bind]. destruct (IH d1) as [d2 [E2 G2]]; [destruct G1 as [Q _]; rewrite Q; auto|].
    exists d2. split; auto. apply (grow_ext _ _ _ _ (grow_trans _ _ _ _ _ G1 G2)). intros l. unfold ends. cbn [flat_map]. rewrite app_nil_r. reflexivity.
Qed.
Lemma draw_links_run : forall links ds, Forall (fun k : link ROps => (k_layer1 k < length ds /\ k_layer2 k < length ds)%nat) links -> (forall d, In d ds -> sound d) ->
  exists ds', draw_links ROps A lm links ds = Ok ds' /\ length ds' = length ds /\
    forall l d, nth_error ds l = Some d -> exists d' new cs, nth_error ds' l = Some d' /\ only_adds_points d d' /\ points d' = points d ++ ends links l ++ new /\
      Forall2 (clear_of d) (ends links l) cs /\ Permutation new (flat_map (fun pc => rings (fst pc) (snd pc)) (combine (ends links l) cs)).
Proof using exact.
  intros links ds H S. unfold draw_links. destruct (draw_ends_grow links ds H) as [d1 [E1 G1]]. rewrite E1. cbn [bind].
  destruct (draw_rings_grow links ds d1 _ G1 H S) as [d2 [g [E2 [G2 R]]]]. exists d2. split; auto. destruct (grow_trans _ _ _ _ _ G1 G2) as [LE G]. split; auto.
  intros l d D. destruct (G l d D) as [d' [N Q]]. destruct (R l d D) as [cs [C1 C2]]. exists d', (g l), cs. split; auto. rewrite Q. split; [|split; auto].
  unfold only_adds_points. cbn. split; [eauto|auto].
Qed.
End Rings.

(** ** where they are *)
Lemma vertex_dist : forall p (r : R) n k, 0 <= r -> dist p (circle_vertex p r n k) = r.
Proof.
  intros p r n k H. unfold dist, circle_vertex. rewrite px_P, py_P. set (a := 2 * PI * INR k / INR n).
  pose proof (sin2_cos2 a) as Q. unfold Rsqr in Q.
  replace ((px p - (px p + r * cos a)) * (px p - (px p + r * cos a)) + (py p - (py p + r * sin a)) * (py p - (py p + r * sin a))) with (r * r * (sin a * sin a + cos a * cos a)) by ring.
  rewrite Q, Rmult_1_r. apply sqrt_square; auto.
Qed.
Lemma dist_nonneg : forall p q, 0 <= dist p q.
Proof. intros. unfold dist. apply sqrt_pos. Qed.
Lemma dbl_max_pos : 0 < dbl_max ROps.
Proof. cbn [dbl_max ROps]. apply Rmult_lt_0_compat; [|apply pow_lt; lra]. assert (/ 2 ^ 52 <= 1); [|lra]. rewrite <- Rinv_1. apply Rinv_le_contravar; [lra|]. apply pow_R1_Rle. lra. Qed.
Lemma clear_nonneg : forall A (d : drawing ROps A) p c, clear_of d p c -> 0 <= c.
Proof.
  intros A d p c [B [M Q]]. destruct Q as [->|[s [a [b [_ [_ [_ [[q [_ <-]] _]]]]]]]]; [pose proof dbl_max_pos; lra|apply dist_nonneg].
Qed.
Lemma ring_in : forall p c q, In q (rings p c) -> exists k, (k < 10)%nat /\ (q = circle_vertex p (c / 2) 10 k \/ q = circle_vertex p (c / 4) 10 k).
Proof.
  intros p c q H. unfold rings in H. apply in_app_or in H. destruct H as [H|H]; apply in_map_iff in H; destruct H as [k [<- K]]; apply in_seq in K; exists k; split; auto; lia.
Qed.
Lemma ring_apart : forall A (d : drawing ROps A) p c q, clear_of d p c -> In q (rings p c) ->
  (dist p q = c / 2 \/ dist p q = c / 4) /\
  forall s a b z, In s (segments d) -> nth_error (points d) (fst s) = Some a -> nth_error (points d) (snd s) = Some b -> a <> b -> on_segment z a b -> c / 2 <= dist q z.
Proof.
  intros A d p c q H I. pose proof (clear_nonneg A d p c H) as C. assert (D : dist p q = c / 2 \/ dist p q = c / 4).
  { destruct (ring_in p c q I) as [k [K [E|E]]]; rewrite E; rewrite vertex_dist by lra; auto. }
  split; auto. intros s a b z S1 S2 S3 N Z. destruct (psd_spec p a b N) as [m [_ Q]]. destruct H as [_ [M _]]. assert (c <= m) by (apply M; exists s, a, b; auto).
  destruct Q as [_ Q]. specialize (Q z Z). pose proof (dist_tri p q z). destruct D; lra.
Qed.
Lemma vertex_opposite : forall p r k, opposite p (circle_vertex p r 10 k) = circle_vertex p r 10 (k + 5).
Proof.
  intros p r k. unfold opposite, circle_vertex. rewrite !px_P, !py_P. rewrite plus_INR. replace (INR 10) with 10 by (cbn; lra). replace (INR 5) with 5 by (cbn; lra).
  replace (2 * PI * (INR k + 5) / 10) with (2 * PI * INR k / 10 + PI) by field. rewrite neg_cos, neg_sin. unfold P. f_equal; ring.
Qed.
Lemma vertex_period : forall p r k, circle_vertex p r 10 (k + 10) = circle_vertex p r 10 k.
Proof.
  intros p r k. unfold circle_vertex. rewrite plus_INR. replace (INR 10) with 10 by (cbn; lra).
  replace (2 * PI * (INR k + 10) / 10) with (2 * PI * INR k / 10 + 2 * INR 1 * PI) by (cbn; field). rewrite cos_period, sin_period. auto.
Qed.
Lemma ring_symmetric : forall p c q, In q (rings p c) -> In (opposite p q) (rings p c).
Proof.
  intros p c q H. assert (G : forall r k, (k < 10)%nat -> In (opposite p (circle_vertex p r 10 k)) (map (circle_vertex p r 10) (seq 0 10))).
  { intros r k K. rewrite vertex_opposite. destruct (lt_dec k 5) as [L|L]; [apply in_map, in_seq; lia|]. replace (k + 5)%nat with ((k - 5) + 10)%nat by lia. rewrite vertex_period. apply in_map, in_seq. lia. }
  destruct (ring_in p c q H) as [k [K [E|E]]]; rewrite E; unfold rings; apply in_or_app; [left|right]; auto.
Qed.
Lemma ring_length : forall p c, length (rings p c) = 20%nat.
Proof. reflexivity. Qed.
(** an end on a segment *)
Lemma ring_flat : forall A (d : drawing ROps A) p c s a b, clear_of d p c -> In s (segments d) -> nth_error (points d) (fst s) = Some a -> nth_error (points d) (snd s) = Some b -> a <> b ->
  on_segment p a b -> c = 0 /\ rings p c = repeat p 20.
Proof.
  intros A d p c s a b H S1 S2 S3 N Z. assert (C : c = 0).
  { apply Rle_antisym; [|apply (clear_nonneg A d p); auto]. destruct H as [_ [M _]]. apply M. exists s, a, b. split; auto. split; auto. split; auto.
    assert (D0 : dist p p = 0) by (unfold dist; replace ((px p - px p) * (px p - px p) + (py p - py p) * (py p - py p)) with 0 by ring; apply sqrt_0).
    split; [exists p; auto|]. intros; apply dist_nonneg. }
  split; auto. subst c. assert (V : forall r n k, r = 0 -> circle_vertex p r n k = p).
  { intros r n k ->. unfold circle_vertex. destruct p as [x y]. unfold px, py, P. cbn [vx vy]. f_equal; ring. }
  unfold rings. cbn [map seq app repeat]. rewrite !V by lra. reflexivity.
Qed.
