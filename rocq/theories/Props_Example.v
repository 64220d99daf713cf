(** Properties C102, C103 and C104: the example programs.  Model in ExampleModel.v, vocabulary in ExampleSpec.v and PlaneSpec.v. *)
From Coq Require Import String.
From Coq Require Import List Arith ZArith NArith Bool Lia.
From Coq Require Import Reals Lra.
From Verif Require Import Base SumR GeometryModel GeometrySpec Geometry_proofs DrawingModel DrawingSpec DrawingR_proofs PlaneSpec Plane_proofs ExampleModel ExampleSpec Example_proofs Motion_proofs Motor_proofs Props_Plane.
Import ListNotations.
Local Open Scope R_scope.

(** ** Design optimisation *)
(** *** C102: every design whose parts can be told apart is accepted as drawn; each seed lies in one of its rectangles *)
Theorem C102_design : forall (mat : Type) (iron copper : mat) (lm : libm ROps) (peq : prop ROps mat -> prop ROps mat -> bool), exact_libm lm ->
  forall w h i : R, 2 * tol9 <= w -> tol9 <= h -> tol9 <= i ->
  exists cs d, design_calls ROps mat iron copper w h i = Ok cs /\
    draw_all ROps lm (prop ROps mat) peq cs (empty_drawing ROps (prop ROps mat)) = (d, Ok tt) /\
    well_formed d /\ NoDup (points d) /\ length (outlines cs) = 4%nat /\ length (seeds cs) = 4%nat /\
    (forall a b, stored d a b \/ stored d b a <-> In (a, b) (all_edges cs) \/ In (b, a) (all_edges cs)) /\
    forall q v, In (q, v) (seeds cs) ->
      exists p1 p2, In (DrawRectangle p1 p2) cs /\ inside_rectangle q p1 p2 /\ magnet_of v = P 0 0 /\ (current_of v = 0 -> snd v = iron).
Proof.
  intros mat iron copper lm peq EX w h i W H I. pose proof tol_pos as TP. exists (design mat iron copper w h i).
  destruct (C101_accepted lm (prop ROps mat) peq EX (design mat iron copper w h i) (design_plain _ _ _ _ _ _) (design_plane _ _ _ _ _ _ W H I)) as (d & D & WF & ND & _ & ST & _).
  exists d. split; [apply design_run; apply Rgt_not_eq, Rmult_lt_0_compat; lra|]. repeat (split; [first [assumption|reflexivity]|]).
  intros q v J. destruct (design_seeds mat iron copper w h i ltac:(lra) ltac:(lra) ltac:(lra) q v) as (p1 & p2 & A & B & M & K & _); [|exists p1, p2; auto].
  cbn [seeds flat_map design app In] in J. cbn [design In]. repeat (destruct J as [J|J]; [injection J as <- <-; tauto|]). destruct J.
Qed.
Print Assumptions C102_design.
(** the example's own start *)
Example C102_design_case : 2 * tol9 <= 2 /\ tol9 <= 2.
Proof. pose proof tol_pos. lra. Qed.

(** *** C102: the declared total current of 1000 is not what the windings carry: density times area is 250 in each *)
Theorem C102_current : forall (mat : Type) (iron copper : mat) (w h i : R) cs, 0 < w -> 0 < h -> 0 < i -> design_calls ROps mat iron copper w h i = Ok cs ->
  forall q v, In (q, v) (seeds cs) -> current_of v <> 0 ->
  snd v = copper /\ (0 < current_of v <-> 0 < px q) /\
  exists p1 p2, In (DrawRectangle p1 p2) cs /\ inside_rectangle q p1 p2 /\ Rabs (current_of v) * (Rabs (px p2 - px p1) * Rabs (py p2 - py p1)) = 250.
Proof.
  intros mat iron copper w h i cs W H I E q v J N. rewrite design_run in E by (apply Rgt_not_eq, Rmult_lt_0_compat; lra). injection E as <-.
  destruct (design_seeds mat iron copper w h i W H I q v) as (p1 & p2 & A & B & _ & _ & C); [|destruct (C N) as (C1 & C2 & C3); repeat (split; [assumption|]); exists p1, p2; auto].
  cbn [seeds flat_map design app In] in J. cbn [design In]. repeat (destruct J as [J|J]; [injection J as <- <-; tauto|]). destruct J.
Qed.
Print Assumptions C102_current.
Theorem C102_current_refuted : exists (w h i : R) cs q v p1 p2, 0 < w /\ 0 < h /\ 0 < i /\ design_calls ROps unit tt tt w h i = Ok cs /\
  In (q, v) (seeds cs) /\ In (DrawRectangle p1 p2) cs /\ inside_rectangle q p1 p2 /\ 0 < current_of v /\
  2 * (current_of v * (Rabs (px p2 - px p1) * Rabs (py p2 - py p1))) <> 1000.
Proof.
  exists 2, 2, 2, (design unit tt tt 2 2 2). exists (P (2 / 2 + 2 / 4) (2 / 2)), (1000 / (2 * 2 * 2), P 0 0, tt), (P (2 / 2) 0), (P ((2 + 2) / 2) 2).
  split; [lra|]. split; [lra|]. split; [lra|]. split; [apply design_run; lra|]. split; [cbn; tauto|]. split; [cbn; tauto|].
  split; [unfold inside_rectangle, Rmin, Rmax; rewrite ?px_P, ?py_P; repeat destruct (Rle_dec _ _); lra|]. unfold current_of. cbn [fst]. split; [lra|].
  rewrite ?px_P, ?py_P, !Rabs_pos_eq by lra. lra.
Qed.
Print Assumptions C102_current_refuted.

(** *** C102: generateSystem (0.001) asks for refinement with triangles up to area 1, not for elements of size 0.001 *)
Theorem C102_size : forall (mat : Type) (iron copper : mat) measure (w h i : R) cs, 0 < w -> 0 < h -> design_calls ROps mat iron copper w h i = Ok cs ->
  cost_function ROps mat iron copper measure w h i = measure cs (true, 1, 33%Z).
Proof.
  intros mat iron copper measure w h i cs W H E. assert (N : w * h <> 0) by (apply Rgt_not_eq, Rmult_lt_0_compat; lra).
  rewrite design_run in E by auto. injection E as <-. apply cost_run. auto.
Qed.
Print Assumptions C102_size.

(** *** C102: the height is never changed; where the force depends affinely on the design every iteration raises it *)
Theorem C102_descent : forall (cost : R -> R -> R -> res R) (n : nat) (w h i : R),
  (forall w' h' i', descent ROps n cost (w, h, i) = Ok (w', h', i') -> h' = h) /\
  (forall c0 c1 c2 c3, (forall w h i, cost w h i = Ok (c0 + c1 * w + c2 * h + c3 * i)) ->
     exists w' h' i' f f', descent ROps n cost (w, h, i) = Ok (w', h', i') /\ cost w h i = Ok f /\ cost w' h' i' = Ok f' /\
       f' = f + INR n * 1000 * (c1 * c1 + c3 * c3)).
Proof.
  intros cost n w h i. split; [intros; eapply descent_height; eauto|]. intros c0 c1 c2 c3 C. do 5 eexists.
  split; [apply (descent_affine n cost c0 c1 c2 c3); auto|]. split; [apply C|]. split; [apply C|]. ring.
Qed.
Print Assumptions C102_descent.
Example C102_descent_case : exists cost : R -> R -> R -> res R, forall w h i, cost w h i = Ok (1 + 2 * w + 3 * h + (-1) * i).
Proof. exists (fun w h i => Ok (1 + 2 * w + 3 * h + (-1) * i)). auto. Qed.

(** *** C102: for a force that is quadratic with its extremum at u the iteration aims at u - 0.15 and multiplies the distance by 1 + 2000 q:
    it runs away from every minimum and from every maximum with q below -1/1000 *)
Theorem C102_quadratic : forall (cost : R -> R -> R -> res R) (g : R -> R) (c0 u q r : R) (n : nat) (w h i : R),
  (forall w h i, cost w h i = Ok (c0 + q * (w - u) * (w - u) + g h + r * (i - u) * (i - u))) ->
  exists w' i', descent ROps n cost (w, h, i) = Ok (w', h, i') /\
    w' - (u - 3 / 20) = (1 + 2000 * q) ^ n * (w - (u - 3 / 20)) /\ i' - (u - 3 / 20) = (1 + 2000 * r) ^ n * (i - (u - 3 / 20)).
Proof.
  intros cost g c0 u q r n w h i C. do 2 eexists. split; [apply (descent_quadratic n cost c0 u q r g); auto|]. split; ring.
Qed.
Print Assumptions C102_quadratic.
Example C102_quadratic_case : exists cost : R -> R -> R -> res R, forall w h i, cost w h i = Ok (5 + - (1 / 4000) * (w - 3) * (w - 3) + h * h + (1 / 2) * (i - 3) * (i - 3)).
Proof. eexists (fun w h i => Ok _). reflexivity. Qed.

(** ** Moving magnets *)
(** *** C103: every outline is the square of the given half side around the centre, magnetised with 1000, whatever the state *)
Theorem C103_shape : forall (lm : libm ROps), exact_libm lm -> forall (r : R) (b : body ROps), 0 <= r ->
  exists p1 p2 p3 p4, outline ROps lm r b = [p1; p2; p3; p4] /\
    dist p1 p2 = 2 * r /\ dist p2 p3 = 2 * r /\ dist p3 p4 = 2 * r /\ dist p4 p1 = 2 * r /\ dist p1 p3 = dist p2 p4 /\
    P ((px p1 + px p3) / 2) ((py p1 + py p3) / 2) = b_centre _ b /\ P ((px p2 + px p4) / 2) ((py p2 + py p4) / 2) = b_centre _ b /\
    poly_area (outline ROps lm r b) = 2 * r * (2 * r) /\ dist (magnetisation ROps lm b) (P 0 0) = 1000 /\
    moved p1 (2 * r) (P (cos (b_angle _ b)) (sin (b_angle _ b))) = p2 /\ moved p1 (2 * r / 1000) (magnetisation ROps lm b) = p4.
Proof.
  intros lm EX r b R0. do 4 eexists. split; [apply outline_eq; auto|].
  assert (S : forall x, x = 2 * r * (2 * r) -> sqrt x = 2 * r) by (intros x ->; apply sqrt_square; lra).
  rewrite !corner_dist. split; [apply S; ring|]. split; [apply S; ring|]. split; [apply S; ring|]. split; [apply S; ring|]. split; [f_equal; ring|].
  destruct b as [[cx cy] a v w]. unfold corner, b_centre, b_angle, px, py, P. cbn [vx vy]. toR.
  split; [f_equal; field|]. split; [f_equal; field|]. split; [|split; [apply magnet_length; auto|]].
  - unfold poly_area. rewrite outline_area by auto. rewrite Rabs_pos_eq; [field|]. assert (0 <= r * r) by (apply Rmult_le_pos; auto). lra.
  - destruct EX as (S1 & C1 & _). unfold moved, magnetisation, rotate0, px, py, P. cbn [vx vy add sub mul zero ofZ ROps b_angle]. rewrite S1, C1. toR.
    split; f_equal; field.
Qed.
Print Assumptions C103_shape.
(** *** C103: while the centres are more than two sides apart the drawing of the two magnets is accepted as drawn, at every angle *)
Theorem C103_accepted : forall (mat : Type) (neo : mat) (lm : libm ROps) (peq : prop ROps mat -> prop ROps mat -> bool), exact_libm lm ->
  forall (r : R) (b1 b2 : body ROps), tol9 <= r -> 4 * r < dist (b_centre _ b1) (b_centre _ b2) ->
  exists d, draw_all ROps lm (prop ROps mat) peq (layout ROps lm mat neo r b1 b2) (empty_drawing ROps (prop ROps mat)) = (d, Ok tt) /\ well_formed d /\
    NoDup (points d) /\ (forall p, In p (points d) <-> In p (outline ROps lm r b1 ++ outline ROps lm r b2)) /\
    (forall a b, stored d a b \/ stored d b a <-> exists g, (g = outline ROps lm r b1 \/ g = outline ROps lm r b2) /\ (In (a, b) (edges g) \/ In (b, a) (edges g))) /\
    polygons d = [outline ROps lm r b1; outline ROps lm r b2] /\ map fst (regions d) = [b_centre _ b1; b_centre _ b2] /\
    seeds (layout ROps lm mat neo r b1 b2) = [(b_centre _ b1, (0, magnetisation ROps lm b1, neo)); (b_centre _ b2, (0, magnetisation ROps lm b2, neo))].
Proof.
  intros mat neo lm peq EX r b1 b2 RT F.
  destruct (C101_accepted lm (prop ROps mat) peq EX (layout ROps lm mat neo r b1 b2) (lay_plain mat neo lm EX r b1 b2) (lay_plane mat neo lm EX r b1 b2 RT F)) as (d & D & WF & ND & PT & ST & PO & RE).
  exists d. split; [exact D|]. split; [exact WF|]. split; [exact ND|]. rewrite lay_edges in PT, ST. unfold corners in *. split; [|split].
  - intros p. rewrite PT. unfold ends. rewrite !outline_eq by auto. cbn [edges combine app In]. split.
    + intros (q & J). repeat (destruct J as [J|J] || idtac); try contradiction; try (injection J as <- <-; tauto).
      all: repeat match goal with H : _ \/ _ |- _ => destruct H as [H|H] end; try contradiction; match goal with H : (_, _) = (_, _) |- _ => injection H as <- <-; tauto end.
    + intros J. repeat match goal with H : _ \/ _ |- _ => destruct H as [H|H] end; try contradiction; subst p; eexists; left; eauto 12.
  - intros a b. rewrite ST. rewrite !in_app_iff. split.
    + intros [[J|J]|[J|J]]; eexists; eauto 6.
    + intros (g & [-> | ->] & [J|J]); auto 6.
  - split; [exact PO|]. split; [exact RE|reflexivity].
Qed.
Print Assumptions C103_accepted.
(** the example's own start: unit squares at (0, 0) and (3, 3) *)
Example C103_accepted_case : tol9 <= 1 / 2 /\ 4 * (1 / 2) < dist (P 0 0) (P 3 3).
Proof.
  pose proof tol_pos. split; [lra|]. unfold dist. rewrite !px_P, !py_P. replace (4 * (1 / 2)) with (sqrt (2 * 2)) by (rewrite sqrt_square; lra). apply sqrt_lt_1_alt. lra.
Qed.
(** *** C103: one turn accelerates each body by the force on it and moves it with its new velocity; the same for the spins.
    In sum, the momentum changes by the forces and moves the centre of mass *)
Theorem C103_turn : forall (mat : Type) (neo : mat) (lm : libm ROps) stress (r dt m1 m2 i1 i2 : R) s s',
  m1 <> 0 -> m2 <> 0 -> i1 <> 0 -> i2 <> 0 -> turn_of ROps lm mat neo stress r dt m1 m2 i1 i2 s = Ok s' ->
  exists F1 t1 F2 t2, stress (layout ROps lm mat neo r (fst s) (snd s)) = Ok ((F1, t1), (F2, t2)) /\
    follows dt m1 i1 F1 t1 (fst s) (fst s') /\ follows dt m2 i2 F2 t2 (snd s) (snd s') /\
    momentum m1 m2 s' = moved (momentum m1 m2 s) dt (P (px F1 + px F2) (py F1 + py F2)) /\
    weighted_centre m1 m2 s' = moved (weighted_centre m1 m2 s) dt (momentum m1 m2 s').
Proof.
  intros mat neo lm stress r dt m1 m2 i1 i2 s s' M1 M2 I1 I2 E.
  destruct (turn_bodies mat neo lm stress r dt m1 m2 i1 i2 s s' M1 M2 I1 I2 E) as (F1 & t1 & F2 & t2 & S & B1 & B2).
  destruct (turn_momentum mat neo lm stress r dt m1 m2 i1 i2 s s' M1 M2 I1 I2 E) as (F1' & t1' & F2' & t2' & S' & MO & CE & _).
  rewrite S in S'. injection S' as <- <- <- <-. exists F1, t1, F2, t2. auto.
Qed.
Print Assumptions C103_turn.
(** *** C103: if the two forces are always opposite, momentum is conserved and the centre of mass moves uniformly for any number of turns *)
Theorem C103_conserved : forall (mat : Type) (neo : mat) (lm : libm ROps) stress (n : nat) (r dt m1 m2 i1 i2 : R) s s',
  m1 <> 0 -> m2 <> 0 -> i1 <> 0 -> i2 <> 0 ->
  (forall cs F1 t1 F2 t2, stress cs = Ok ((F1, t1), (F2, t2)) -> F2 = P (- px F1) (- py F1)) ->
  turns ROps lm mat neo stress n r dt m1 m2 i1 i2 s = Ok s' ->
  momentum m1 m2 s' = momentum m1 m2 s /\ weighted_centre m1 m2 s' = moved (weighted_centre m1 m2 s) (INR n * dt) (momentum m1 m2 s).
Proof. intros mat neo lm stress n r dt m1 m2 i1 i2 s s' M1 M2 I1 I2 A E. exact (turns_momentum mat neo lm stress n r dt m1 m2 i1 i2 s s' M1 M2 I1 I2 A E). Qed.
Print Assumptions C103_conserved.
(** two turns under a pair of opposite forces *)
Definition pull (cs : list (call ROps (prop ROps unit))) : res ((pt * R) * (pt * R)) := Ok ((P 1 2, 3), (P (- 1) (- 2), -3)).
Example C103_conserved_case : forall lm : libm ROps,
  (forall cs F1 t1 F2 t2, pull cs = Ok ((F1, t1), (F2, t2)) -> F2 = P (- px F1) (- py F1)) /\
  exists s', turns ROps lm unit tt pull 2 (1 / 2) 10 2 4 1 1 (mkBody ROps (P 0 0) 0 (P 0 0) 0, mkBody ROps (P 3 3) PI (P 0 0) 0) = Ok s' /\ b_velocity _ (fst s') = P 10 20.
Proof.
  intros lm. split.
  - intros cs F1 t1 F2 t2 E. injection E as <- _ <- _. rewrite px_P, py_P. reflexivity.
  - eexists. split.
    + cbn [turns]. unfold turn_of, pull. cbn [bind fst snd]. repeat (rewrite adv_run by lra; cbn [bind fst snd]). reflexivity.
    + cbn [fst snd b_velocity]. rewrite ?px_P, ?py_P. f_equal; field.
Qed.

(** ** The motor *)
(** *** C104: the program completes for all parameters except without poles *)
Theorem C104_calls : forall (mat : Type) (iron air : mat) (lm : libm ROps), exact_libm lm -> forall (k : motor ROps) (sp rp : nat),
  (is_ok (motor_calls ROps lm mat iron air k sp rp) <-> sp <> O /\ rp <> O) /\
  (sp = O \/ rp = O -> is_nonfin (motor_calls ROps lm mat iron air k sp rp)) /\
  forall cs, motor_calls ROps lm mat iron air k sp rp = Ok cs -> length cs = (4 * sp + 2 * rp + 8)%nat.
Proof.
  intros mat iron air lm EX k sp rp. assert (Z := motor_zero mat iron air lm EX k sp rp). split; [split|split].
  - intros [cs E]. split; intros N; destruct Z as [s Z]; auto; congruence.
  - intros [S R]. eexists. apply motor_run; auto.
  - exact Z.
  - intros cs E. destruct (Nat.eq_dec sp 0) as [S|S]; [destruct Z as [s Z]; auto; congruence|]. destruct (Nat.eq_dec rp 0) as [R|R]; [destruct Z as [s Z]; auto; congruence|].
    rewrite motor_run in E by auto. injection E as <-. apply motor_count.
Qed.
Print Assumptions C104_calls.
(** *** C104: the currents of all outlines add up to nothing *)
Theorem C104_net_current : forall (mat : Type) (iron air : mat) (lm : libm ROps), exact_libm lm -> forall (k : motor ROps) (sp rp : nat) cs,
  motor_calls ROps lm mat iron air k sp rp = Ok cs -> total_current cs = 0.
Proof.
  intros mat iron air lm EX k sp rp cs E. destruct (proj1 (proj1 (C104_calls mat iron air lm EX k sp rp))) as [S R]; [eexists; eauto|].
  rewrite motor_run in E by auto. injection E as <-. apply motor_current; auto.
Qed.
Print Assumptions C104_net_current.
(** *** C104: the seed of a coil side is inside its outline exactly if the middle radius is below the outer chord *)
Theorem C104_seeds : forall (mat : Type) (iron air : mat) (lm : libm ROps), exact_libm lm -> forall (k : motor ROps) (sp rp : nat) cs,
  motor_calls ROps lm mat iron air k sp rp = Ok cs ->
  let gap := (stator_inner_pole_radius _ k - stator_outer_radius _ k) * (1 - winding_of_stem _ k) in
  let s := stator_outer_radius _ k + gap in let e := stator_inner_pole_radius _ k - gap in let w := 2 * PI / INR sp * winding_fill _ k in
  0 < s < e -> 0 < w < PI ->
  forall g q v, In (g, (q, v)) (labelled cs) -> current_of v <> 0 -> (inside_convex q g <-> (s + e) / 2 < e * cos (w / 2)).
Proof.
  intros mat iron air lm EX k sp rp cs E gap s e w SE W g q v J N. destruct (proj1 (proj1 (C104_calls mat iron air lm EX k sp rp))) as [S R]; [eexists; eauto|].
  rewrite motor_run in E by auto. injection E as <-.
  assert (Es : s = winding_start ROps k) by (unfold s, gap, winding_start, core_gap, stem_height; cbn [add sub mul ROps]; toR; ring).
  assert (Ee : e = winding_end ROps k) by (unfold e, gap, winding_end, core_gap, stem_height; cbn [add sub mul ROps]; toR; ring).
  rewrite Es, Ee in *. eapply motor_seeds; eauto.
Qed.
Print Assumptions C104_seeds.
(** *** C104: the pole currents of whole groups of twelve add up to nothing, for all three phase currents; their order, and the period of twelve *)
Theorem C104_phases : forall (k : motor ROps) (m : nat), fold_right Rplus 0 (map (coil_current ROps k) (seq 0 (12 * m))) = 0 /\
  (let a := currentA _ k in let b := currentB _ k in let c := currentC _ k in
   map (coil_current ROps k) (seq 0 12) = [a; a; - b; - b; c; c; - a; - a; b; b; - c; - c]) /\
  forall i, coil_current ROps k (i + 12) = coil_current ROps k i.
Proof.
  intros. split; [apply phases|]. split.
  - intros a b c. assert (N : forall x : R, x * IZR (-1) = - x) by (intros; ring).
    unfold coil_current. cbn -[Rmult Ropp IZR]. rewrite !N. reflexivity.
  - intros i. unfold coil_current.
    assert (E : ((i + 12) / 2 = i / 2 + 6)%nat) by (replace (i + 12)%nat with (i + 6 * 2)%nat by lia; apply Nat.div_add; lia).
    rewrite E. replace ((i / 2 + 6) mod 3)%nat with ((i / 2) mod 3)%nat by (replace (i / 2 + 6)%nat with (i / 2 + 2 * 3)%nat by lia; rewrite Nat.mod_add; lia).
    replace ((i / 2 + 6) mod 2)%nat with ((i / 2) mod 2)%nat by (replace (i / 2 + 6)%nat with (i / 2 + 3 * 2)%nat by lia; rewrite Nat.mod_add; lia). reflexivity.
Qed.
Print Assumptions C104_phases.
(** *** C104: the net magnetisation for every number of magnets: none for an even number from four on; two magnets reinforce each other;
    for an odd number n it is that of one magnet over cos (pi / n) *)
Theorem C104_magnets : forall (mat : Type) (iron air : mat) (lm : libm ROps), exact_libm lm -> forall (k : motor ROps) (sp rp : nat) cs,
  motor_calls ROps lm mat iron air k sp rp = Ok cs ->
  let along (r t : R) := P (r * cos t) (r * sin t) in
  (Nat.even rp = true -> (4 <= rp)%nat -> total_magnetisation cs = P 0 0) /\
  (rp = 2%nat -> total_magnetisation cs = along (- (2 * magnet_magnetization _ k)) (angle _ k)) /\
  (Nat.even rp = false -> cos (PI / INR rp) <> 0 /\ total_magnetisation cs = along (- (magnet_magnetization _ k / cos (PI / INR rp))) (angle _ k - PI / INR rp)).
Proof.
  intros mat iron air lm EX k sp rp cs E along. destruct (proj1 (proj1 (C104_calls mat iron air lm EX k sp rp))) as [S R]; [eexists; eauto|].
  rewrite motor_run in E by auto. injection E as <-. split; [|split].
  - intros EV M. apply Nat.even_spec in EV. destruct EV as [m ->]. apply motor_balanced; auto. lia.
  - intros ->. etransitivity; [apply motor_two; auto|]. rewrite pol_eq by auto. reflexivity.
  - intros OD. assert (O : Nat.odd rp = true) by (unfold Nat.odd; rewrite OD; reflexivity). apply Nat.odd_spec in O. destruct O as [m ->].
    destruct (motor_odd mat iron air lm EX k sp m) as [D T]. split; [exact D|]. etransitivity; [exact T|]. rewrite pol_eq by auto. reflexivity.
Qed.
Print Assumptions C104_magnets.
(** *** C104: the stator outline repeats itself from pole to pole, is symmetric about the axis of each pole, and has these radii and opening angles *)
Theorem C104_stator : forall (mat : Type) (iron air : mat) (lm : libm ROps), exact_libm lm -> forall (k : motor ROps) (sp rp : nat) cs,
  motor_calls ROps lm mat iron air k sp rp = Ok cs ->
  let gap := (stator_inner_pole_radius _ k - stator_outer_radius _ k) * (1 - winding_of_stem _ k) in
  let s := stator_outer_radius _ k + gap in let e := stator_inner_pole_radius _ k - gap in let step := 2 * PI / INR sp in
  exists g, In (DrawPolygon g) cs /\ length g = (12 * sp)%nat /\
    (forall i j, (i < sp)%nat -> (j < 12)%nat -> exists p, nth_error g j = Some p /\ nth_error g (12 * i + j) = Some (rotate ROps sin cos p (step * INR i) (P 0 0))) /\
    (forall j, (j < 6)%nat -> exists p, nth_error g j = Some p /\ nth_error g (11 - j) = Some (P (px p) (- py p)) /\
       rotate ROps sin cos p (step * (if (j <? 4)%nat then stem_percent _ k else 1 - cap_unfilled _ k)) (P 0 0) = P (px p) (- py p) /\
       px p * px p + py p * py p = Rsqr (nth j [stator_outer_radius _ k; s; e; stator_inner_pole_radius _ k; stator_inner_pole_radius _ k; stator_outer_pole_radius _ k] 0)) /\
    (** each coil side has an edge in common with the stem of its pole; the two sides carry opposite currents *)
    (forall i, (i < sp)%nat -> exists g1 q1 g2 q2 a b c d,
       In (g1, (q1, (- coil_current ROps k i, P 0 0, air))) (labelled cs) /\ In (g2, (q2, (coil_current ROps k i, P 0 0, air))) (labelled cs) /\
       nth_error g (12 * i + 1) = Some a /\ nth_error g (12 * i + 2) = Some b /\ In (b, a) (edges g1) /\
       nth_error g (12 * i + 9) = Some c /\ nth_error g (12 * i + 10) = Some d /\ In (c, d) (edges g2)).
Proof.
  intros mat iron air lm EX k sp rp cs E gap s e step. destruct (proj1 (proj1 (C104_calls mat iron air lm EX k sp rp))) as [S R]; [eexists; eauto|].
  rewrite motor_run in E by auto. injection E as <-.
  assert (Es : s = winding_start ROps k) by (unfold s, gap, winding_start, core_gap, stem_height; cbn [add sub mul ROps]; toR; ring).
  assert (Ee : e = winding_end ROps k) by (unfold e, gap, winding_end, core_gap, stem_height; cbn [add sub mul ROps]; toR; ring).
  rewrite Es, Ee. exists (stator lm k sp). split; [apply motor_stator|]. split; [unfold stator; apply flat_len; reflexivity|].
  split; [intros i j I J; apply stator_turn; auto|]. split; [intros j J; apply stator_mirror; auto; lia|].
  intros i I. destruct (motor_coils mat iron air lm k sp rp i I) as [A B]. destruct (stem_edges lm k sp i I) as (N1 & N2 & N3 & N4).
  do 8 eexists. split; [exact A|]. split; [exact B|]. split; [exact N1|]. split; [exact N2|]. split; [cbn; tauto|]. split; [exact N3|]. split; [exact N4|]. cbn. tauto.
Qed.
Print Assumptions C104_stator.
(** *** C104: the magnets sit on the rotor outline, are magnetised along their own axis with alternating sign, and have their seed inside exactly under the same condition *)
Theorem C104_rotor : forall (mat : Type) (iron air : mat) (lm : libm ROps), exact_libm lm -> forall (k : motor ROps) (sp rp : nat) cs,
  motor_calls ROps lm mat iron air k sp rp = Ok cs ->
  let e := rotor_inner_radius _ k in let s := e - magnet_thickness _ k in let half := PI / INR rp * magnet_fill _ k in
  exists g, In (DrawPolygon g) cs /\ length g = (2 * rp)%nat /\
    forall i, (i < rp)%nat -> exists gm q M a b, In (gm, (q, (0, M, iron))) (labelled cs) /\
      nth_error g (2 * i) = Some a /\ nth_error g (2 * i + 1) = Some b /\ In (b, a) (edges gm) /\
      rotate ROps sin cos a (2 * half) (P 0 0) = b /\ px a * px a + py a * py a = e * e /\
      (let c := 2 * PI / INR rp * INR i + angle _ k in let m := if Nat.even i then - magnet_magnetization _ k else magnet_magnetization _ k in
       M = P (m * cos c) (m * sin c) /\ q = P ((s + e) / 2 * cos c) ((s + e) / 2 * sin c)) /\
      (0 < s < e -> 0 < 2 * half < PI -> (inside_convex q gm <-> (s + e) / 2 < e * cos half)).
Proof.
  intros mat iron air lm EX k sp rp cs E e s half. destruct (proj1 (proj1 (C104_calls mat iron air lm EX k sp rp))) as [S R]; [eexists; eauto|].
  rewrite motor_run in E by auto. injection E as <-. assert (RN : INR rp <> 0) by (apply not_0_INR; auto).
  assert (EH : fill_of k rp = half) by (unfold fill_of, pitch, half; toR; field; auto).
  exists (rotor lm k rp). split; [apply motor_rotor|]. split; [unfold rotor; apply flat_len; reflexivity|].
  intros i I. pose proof (motor_magnets mat iron air lm k sp rp i I) as A. destruct (rotor_nth lm k rp i I) as [N1 N2]. cbv zeta in *. rewrite Nat.add_0_r in N1.
  rewrite EH in *. do 5 eexists. split; [exact A|]. split; [exact N1|]. split; [exact N2|]. split; [cbn; tauto|].
  split; [rewrite pol_turn by auto; f_equal; toR; ring|]. split.
  { rewrite pol_eq, px_P, py_P by auto. pose proof (sin2_cos2 (pitch rp * INR i + angle ROps k - half)) as SC. unfold Rsqr in SC. fold e. set (x := sin _) in *. set (y := cos _) in *.
    transitivity (e * e * (x * x + y * y)); [toR; ring|rewrite SC; ring]. }
  split.
  - rewrite !pol_eq by auto. fold (pitch rp). split.
    + unfold magnet_pole. rewrite even_mod. reflexivity.
    + f_equal; unfold s, e; toR; field.
  - intros SE W. fold e. change (rotor_inner_radius ROps k - magnet_thickness ROps k) with s.
    replace (e - magnet_thickness ROps k / 2) with (e - (e - s) / 2) by (unfold s; toR; field). apply magnet_inside; auto.
Qed.
Print Assumptions C104_rotor.
(** three magnets *)
Theorem C104_magnets_refuted : exists (k : motor ROps) (sp rp : nat), forall lm : libm ROps, exact_libm lm ->
  exists cs, motor_calls ROps lm unit tt tt k sp rp = Ok cs /\ total_magnetisation cs <> P 0 0.
Proof.
  exists (mkMotor ROps (PI / 3) 1 1 1 1 1 1 1 1 1 1 1 1 1 1 1 1), 3%nat, 3%nat. intros lm EX. set (k := mkMotor ROps _ _ _ _ _ _ _ _ _ _ _ _ _ _ _ _ _).
  assert (E := motor_run unit tt tt lm EX k 3 3 ltac:(discriminate) ltac:(discriminate)). eexists. split; [exact E|]. intros Z.
  destruct (C104_magnets unit tt tt lm EX k 3 3 _ E) as (_ & _ & O). destruct (O eq_refl) as [D T]. cbv beta zeta in T. rewrite Z in T. apply (f_equal px) in T. rewrite !px_P in T.
  replace (INR 3) with 3 in T by (cbn; ring). assert (X : 0 = - (1 / cos (PI / 3)) * cos (PI / 3 - PI / 3)) by exact T.
  rewrite Rminus_diag_eq, cos_0, cos_PI3 in X by reflexivity. lra.
Qed.
Print Assumptions C104_magnets_refuted.
(** the motor of the example program *)
Definition exK : motor ROps := mkMotor ROps 0 1 (95 / 100) (45 / 100) (30 / 100) (1 / 10) (1 / 2) (113 / 100) (112 / 100) (1 / 10) (9 / 10) (24 / 100) (95 / 100) 0 (86 / 100) (- (86 / 100)) 1.
Example C104_case :
  let gap := (stator_inner_pole_radius _ exK - stator_outer_radius _ exK) * (1 - winding_of_stem _ exK) in
  let s := stator_outer_radius _ exK + gap in let e := stator_inner_pole_radius _ exK - gap in let w := 2 * PI / INR 24 * winding_fill _ exK in
  0 < s < e /\ 0 < w < PI.
Proof.
  cbv zeta. unfold exK. cbn [stator_inner_pole_radius stator_outer_radius winding_of_stem winding_fill]. split; [lra|].
  replace (INR 24) with 24 by (rewrite INR_IZR_INZ; reflexivity). pose proof PI_RGT_0. lra.
Qed.
