(** Property C80: the regions of a force integral, and the stress integral. *)
From Coq Require Import String.
From Coq Require Import List Arith ZArith NArith Bool Lia Reals.
From Coq Require Import Sorting.Permutation.
From Verif Require Import Base AlgebraModel AlgebraSpec SolversModel GeometryModel DrawingModel MeshModel MeshSpec ForceModel ForceSpec Edges_proofs Shell_proofs Sim_proofs MeshGeo_proofs
  RegionSpec Props_Material Props_Force.
Import ListNotations.
Local Open Scope nat_scope.

Lemma holes_in : forall o g outer l hs, holes_of o g outer l = Ok hs -> forall h, In h hs <-> In h l /\ hole_between o g outer h.
Proof.
  intros o g outer. induction l as [|x l IH]; intros hs H h; cbn [holes_of] in H; [inversion H; cbn; tauto|].
  ib H b E. ib H r F. injection H as <-. specialize (IH r eq_refl h).
  assert (D : b = true <-> hole_between o g outer x).
  { unfold hole_between. destruct (poly_contains_poly o outer x); cbn [andb] in E; [|inversion E; split; [discriminate|intros [C _]; discriminate]].
    destruct (poly_contains_poly o g x); cbn [negb] in E; [inversion E; split; [discriminate|intros [_ [C _]]; discriminate]|].
    ib E y N. destruct y; [|inversion E; split; [discriminate|intros (_ & _ & C & _); congruence]]. rewrite E.
    split; [intros ->; auto|intros (_ & _ & _ & C); congruence]. }
  destruct b; cbn [In]; rewrite IH.
  - split; [intros [<-|[I K]]; [split; [auto|apply D; reflexivity]|auto]|intros [[<-|I] K]; auto].
  - split; [intros [I K]; auto|intros [[<-|I] K]; [apply D in K; discriminate|auto]].
Qed.
Lemma in_hole : forall o eps q l b, in_a_hole o eps q l = Ok b -> (b = true <-> exists h, In h l /\ says_in o eps false h q).
Proof.
  intros o eps q. induction l as [|h l IH]; intros b H; cbn [in_a_hole] in H; [inversion H; split; [discriminate|intros (h & [] & _)]|].
  ib H c E. destruct c.
  - inversion H. split; [intros _; exists h; split; [left; reflexivity|exact E]|reflexivity].
  - specialize (IH b H). rewrite IH. split; [intros (k & I & S); exists k; split; [right; exact I|exact S]|].
    intros (k & [<-|I] & S); [unfold says_in in S; congruence|exists k; auto].
Qed.
Lemma assets_regions : forall o A pdef dm (m : mesh o A) B p a, get_assets o A pdef dm m B p = Ok a ->
  exists g outer hs, find_regions o A pdef m p = Ok (g, outer, hs) /\ Forall2 (fun q f => vertex_flags o (m_epsilon m) g outer hs q = Ok f) (m_points m) (as_flags a).
Proof.
  intros o A pdef dm m B p a H. unfold get_assets in H. apply bind_ok in H. destruct H as ([[g outer] hs] & E & H). ib H ids E1. ib H errs E2. ib H fl E3. inversion H; subst.
  exists g, outer, hs. split; [exact E|]. cbn. apply map_res_F2. exact E3.
Qed.

(** ** C80: which nodes a force integral holds and where it integrates *)
(** the body is the innermost outline around the point, the boundary region an outline around the body, and the holes are the
    other outlines of the drawing in the boundary region that do not lie in the body *)
Theorem C80_regions : forall o A pdef (m : mesh o A) p g outer hs, find_regions o A pdef m p = Ok (g, outer, hs) ->
  getInnermostPolygon o A m p = Ok g /\ In outer (polygons (m_drawing m)) /\ encloses o outer g /\
  forall h, In h hs <-> In h (polygons (m_drawing m)) /\ hole_between o g outer h.
Proof.
  intros o A pdef m p g outer hs H. unfold find_regions in H. apply bind_ok in H. destruct H as (g' & EG & H). ib H l E. ib H l' Q. ib H ou GT. ib H h0 EH. ib H pr EP. inversion H; subst.
  apply removal_one in Q. destruct Q as [-> L]. destruct (enclosing_length o g _ _ E) as [I1 I2]. apply get_ok in GT. apply nth_error_In in GT. apply I1 in GT. destruct GT as [GT1 GT2].
  split; [exact EG|]. split; [exact GT1|]. split; [exact GT2|]. exact (holes_in o g outer _ _ EH).
Qed.
Print Assumptions C80_regions.
(** every node is classified by the library's point-in-polygon test with the mesh's own length scale *)
Theorem C80_nodes : forall o A pdef dm (m : mesh o A) B p a, get_assets o A pdef dm m B p = Ok a ->
  exists g outer hs, find_regions o A pdef m p = Ok (g, outer, hs) /\ length (as_flags a) = length (m_points m) /\
    forall i q, nth_error (m_points m) i = Some q -> exists f, nth_error (as_flags a) i = Some f /\
      (f_inside f = true <-> says_in o (m_epsilon m) false g q) /\ (f_closed f = true <-> says_in o (m_epsilon m) true g q) /\
      (f_outer f = true <-> says_in o (m_epsilon m) true outer q) /\ (f_hole f = true <-> exists h, In h hs /\ says_in o (m_epsilon m) false h q).
Proof.
  intros o A pdef dm m B p a H. destruct (assets_regions _ _ _ _ _ _ _ _ H) as (g & outer & hs & E & F). exists g, outer, hs. split; [exact E|].
  clear - F. split; [induction F; cbn; congruence|]. induction F as [|q0 f0 l l' H F IH]; intros [|i] q Hq; cbn [nth_error] in *; try discriminate.
  - inversion Hq; subst. exists f0. split; [reflexivity|]. unfold vertex_flags in H. ib H a1 E1. ib H b E2. ib H c E3. ib H d E4. injection H as <-.
    unfold f_inside, f_closed, f_outer, f_hole, says_in. cbn [fst snd]. rewrite E1, E2, E3.
    split; [split; congruence|]. split; [split; congruence|]. split; [split; congruence|]. exact (in_hole _ _ _ _ _ E4).
  - exact (IH i q Hq).
Qed.
Print Assumptions C80_nodes.
(** the stress integral is the force and the torque about the given centre, and exists when both do *)
Theorem C80_stress : forall o A pdef dm mu0 sh (m : mesh o A) depth B p c f t,
  computeStressIntegral o A pdef dm mu0 sh m depth B p c = Ok (f, t) <->
  computeForceIntegrals o A pdef dm mu0 sh m depth B p = Ok f /\ computeTorqueIntegral o A pdef dm mu0 sh m depth B p c = Ok t.
Proof.
  intros. unfold computeStressIntegral, computeForceIntegrals, computeTorqueIntegral. destruct (get_assets o A pdef dm m B p) as [a| | |]; cbn [bind]; try (split; [discriminate|intros [C _]; discriminate]).
  destruct (force_integral o A mu0 sh m depth B a) as [f'| | |]; cbn [bind]; try (split; [discriminate|intros [C _]; discriminate]).
  destruct (torque_integral o A mu0 sh m depth B a c) as [t'| | |]; cbn [bind]; try (split; [discriminate|intros [_ C]; discriminate]).
  split; [intros E; injection E as -> ->; auto|intros [E1 E2]; congruence].
Qed.
Print Assumptions C80_stress.
Definition region_ok (polys : list (list (vec FOps))) : bool :=
  match find_regions FOps nat 0 (body_with polys) (@mkV FOps (fq 1 2) (fq 1 2)) with Ok (_, _, hs) => Nat.eqb (length hs) 1 | _ => false end.
(** a body, the air around it and a hole in the air *)
Example C80_example : region_ok [air_outline; body_outline; [V 3 1; V 4 1; V 3 2]] = true /\ is_ok (force_of (fun l => l) body_mesh (mixed_field 1)).
Proof. split; [vm_compute; reflexivity|exact C68_met]. Qed.
