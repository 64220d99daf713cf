(** Properties C87-C90: the physics of the voltages of a conductor.  Vocabulary in PhysSpec.v, model in MeshModel.v and LayersModel.v. *)
From Coq Require Import String.
From Coq Require Import List Arith ZArith NArith Bool Lia Reals Lra.
From Verif Require Import Base SumR AlgebraModel AlgebraSpec Algebra_bridge GeometryModel GeometrySpec Geometry_proofs DrawingModel DrawingSpec
  MeshModel MeshSpec Adjacency_proofs Fem_proofs Energy_proofs LayersModel LayersSpec Voltage_proofs CotSpec Cot_proofs PhysSpec Phys_proofs Props_Mesh Props_Cot.
Import ListNotations.
Local Open Scope R_scope.

Lemma settled_ids : forall A (sigma : A -> R) m ps l ids x, fem_ready m ps -> all_used m -> held m l ids -> settled sigma m l x ->
  (forall id v, In (id, v) (combine ids (map snd l)) -> x id = v) /\ (forall i, (i < length (m_points m))%nat -> ~ In i ids -> act (length (m_points m)) (Kc sigma m ps) x i = 0).
Proof.
  intros A sigma m ps l ids x Rd Us Hh H. apply (settled_iff A sigma m ps l ids x Rd Us Hh) in H. destruct H as [H1 H2]. rewrite (F2_map_fst _ _ _ _ (proj1 Hh)) in H2. auto.
Qed.
Lemma id_call : forall A (m : mesh ROps A) l ids i, held m l ids -> In i ids -> exists c, In c l /\ In (i, snd c) (combine ids (map snd l)).
Proof.
  intros A m l ids i [F _] I. induction F as [|c id l ids C F IH]; [destruct I|]. destruct I as [<-|I]; [exists c; cbn; auto|]. destruct (IH I) as [c' [I1 I2]]. exists c'. cbn. auto.
Qed.
Lemma id_range : forall A (m : mesh ROps A) l ids i, held m l ids -> In i ids -> (i < length (m_points m))%nat.
Proof.
  intros A m l ids i [F _] I. induction F as [|c id l ids C F IH]; [destruct I|]. destruct I as [<-|I]; [apply C|auto].
Qed.

(** ** C87: superposition and scale *)
(** two sets of voltages at the same points: the solution for a combination of them is the combination of the solutions *)
Theorem C87_superposition : forall A (sigma : A -> R) m ps (l : list (pt * (R * R))) ids x y a b, fem_ready m ps -> all_used m ->
  held m (map (fun c => (fst c, fst (snd c))) l) ids ->
  settled sigma m (map (fun c => (fst c, fst (snd c))) l) x -> settled sigma m (map (fun c => (fst c, snd (snd c))) l) y ->
  settled sigma m (map (fun c => (fst c, a * fst (snd c) + b * snd (snd c))) l) (fun v => a * x v + b * y v).
Proof.
  intros A sigma m ps l ids x y a b Rd Us Hh Sx Sy.
  assert (Hv : forall h : pt * (R * R) -> R, held m (map (fun c => (fst c, h c)) l) ids) by (intros h; eapply held_vals; [exact Hh|]; rewrite !map_map; reflexivity).
  apply (settled_ids A sigma m ps _ ids x Rd Us (Hv (fun c => fst (snd c)))) in Sx. apply (settled_ids A sigma m ps _ ids y Rd Us (Hv (fun c => snd (snd c)))) in Sy.
  apply (settled_iff A sigma m ps _ ids _ Rd Us (Hv (fun c => a * fst (snd c) + b * snd (snd c)))). destruct Sx as [X1 X2], Sy as [Y1 Y2].
  split.
  - clear - X1 Y1 Hh. destruct Hh as [F _]. clear F. revert X1 Y1. rewrite !map_map. cbn [fst snd]. intros X1 Y1 id v I.
    assert (G : forall ids (l : list (pt * (R * R))), In (id, v) (combine ids (map (fun c => a * fst (snd c) + b * snd (snd c)) l)) ->
      exists c : pt * (R * R), In (id, fst (snd c)) (combine ids (map (fun c => fst (snd c)) l)) /\ In (id, snd (snd c)) (combine ids (map (fun c => snd (snd c)) l)) /\ v = a * fst (snd c) + b * snd (snd c)).
    { clear. induction ids as [|i ids IH]; intros [|c l] I; try (destruct I; fail); cbn in I; destruct I as [H|H].
      - injection H as <- <-. exists c. cbn. auto.
      - destruct (IH l H) as [c' [I1 [I2 E]]]. exists c'. cbn. auto. }
    destruct (G ids l I) as [c [I1 [I2 ->]]]. rewrite (X1 _ _ I1), (Y1 _ _ I2). reflexivity.
  - intros i Hi NI. rewrite (F2_map_fst _ _ _ _ (proj1 (Hv _))) in NI. rewrite act_lin, X2, Y2 by auto. ring.
Qed.
(** the same voltages solve the problem with all conductivities multiplied by k and another depth *)
Theorem C87_scale : forall A (sigma : A -> R) m ps l ids x k d, fem_ready m ps -> all_used m -> held m l ids -> m_depth m <> 0 -> k * d <> 0 ->
  (settled (fun p => k * sigma p) (with_depth d m) l x <-> settled sigma m l x).
Proof.
  intros A sigma m ps l ids x k d Rd Us Hh Hd Hk. rewrite (settled_iff A sigma m ps l ids x Rd Us Hh).
  rewrite (settled_iff A (fun p => k * sigma p) (with_depth d m) ps l ids x Rd Us Hh). unfold balanced. change (m_points (with_depth d m)) with (m_points m).
  assert (E : forall i, act (length (m_points m)) (Kc (fun p => k * sigma p) (with_depth d m) ps) x i = k * d / m_depth m * act (length (m_points m)) (Kc sigma m ps) x i).
  { intros i. rewrite <- act_scale_K. apply act_ext_K. intros; apply Kc_scale; auto. }
  assert (Hf : k * d / m_depth m <> 0) by (unfold Rdiv; apply Rmult_integral_contrapositive_currified; auto; apply Rinv_neq_0_compat; auto).
  split; intros [H1 H2]; split; auto; intros i Hi NI; specialize (H2 i Hi NI); rewrite E in *.
  - apply Rmult_integral in H2. destruct H2; auto. contradiction.
  - rewrite H2. ring.
Qed.
(** a similar mesh with similarly placed electrodes has the same voltages and dissipates the same power *)
Theorem C87_similar : forall A (sigma : A -> R) m ps l ids x w k f, similarity k f -> fem_ready m ps -> all_used m -> held m l ids ->
  fem_ready (carried f m) ps /\ held (carried f m) (carried_calls f l) ids /\
  (settled sigma (carried f m) (carried_calls f l) x <-> settled sigma m l x) /\ (dissipates sigma (carried f m) ps x w <-> dissipates sigma m ps x w).
Proof.
  intros A sigma m ps l ids x w k f Sm Rd Us Hh. split; [eapply carried_ready; eauto|]. split; [eapply carried_held; eauto|]. split; [eapply carried_settled; eauto|eapply carried_power; eauto].
Qed.

(** ** C88: no voltage beyond those imposed *)
Lemma max_bound : forall A (sigma : A -> R) m ps l ids x hi, fem_ready m ps -> all_used m -> (forall p, In p ps -> 0 < sigma p) -> 0 < m_depth m -> held m l ids -> pins m ids ->
  cotangents_nonneg sigma m ps -> (forall c, In c l -> snd c <= hi) -> settled sigma m l x -> forall i, (i < length (m_points m))%nat -> x i <= hi.
Proof.
  intros A sigma m ps l ids x hi Rd Us Hs Hd Hh Pn Ct Hi Sx. apply (settled_ids A sigma m ps l ids x Rd Us Hh) in Sx. destruct Sx as [H1 H2].
  apply (quad_max (length (m_points m)) (Kc sigma m ps)) with (ids := ids); auto.
  - intros; apply Kc_sym.
  - apply Kc_rows; auto.
  - intros i j _ _ N. rewrite Kc_off by auto. pose proof (Ct i j N) as Q. set (s := suml _ _) in *. assert (0 <= m_depth m / 2 * s) by (apply Rmult_le_pos; auto; lra). lra.
  - intros i I. destruct (id_call A m l ids i Hh I) as [c [I1 I2]]. rewrite (H1 _ _ I2). auto.
  - apply Kc_definite; auto.
Qed.
(** on a mesh whose opposite cotangents do not add up to less than 0, every voltage lies between the smallest and the
    largest that was imposed *)
Theorem C88_between : forall A (sigma : A -> R) m ps l ids x lo hi, fem_ready m ps -> all_used m -> (forall p, In p ps -> 0 < sigma p) -> 0 < m_depth m -> held m l ids -> pins m ids ->
  cotangents_nonneg sigma m ps -> (forall c, In c l -> lo <= snd c <= hi) -> settled sigma m l x -> forall i, (i < length (m_points m))%nat -> lo <= x i <= hi.
Proof.
  intros A sigma m ps l ids x lo hi Rd Us Hs Hd Hh Pn Ct Hb Sx i Hi. split.
  - set (l' := map (fun c : pt * R => (fst c, (snd c, 0))) l).
    assert (E : map (fun c : pt * (R * R) => (fst c, fst (snd c))) l' = l) by (unfold l'; rewrite map_map; cbn [fst snd]; rewrite <- (map_id l) at 2; apply map_ext; intros []; auto).
    assert (S0 : settled sigma m (map (fun c : pt * (R * R) => (fst c, - 1 * fst (snd c) + 0 * snd (snd c))) l') (fun v => - 1 * x v + 0 * 0)).
    { apply (C87_superposition A sigma m ps l' ids x (fun _ => 0)); auto; rewrite ?E; auto.
      apply (settled_iff A sigma m ps _ ids _ Rd Us); [eapply held_vals; [exact Hh|]; unfold l'; rewrite !map_map; reflexivity|]. split.
      - intros id v I. apply in_combine_r in I. apply in_map_iff in I. destruct I as [c [<- I]]. unfold l' in I. rewrite map_map in I. apply in_map_iff in I. destruct I as [c' [<- _]]. reflexivity.
      - intros. unfold act. apply sumn_0. intros. ring. }
    assert (- 1 * x i + 0 * 0 <= - lo); [|lra].
    apply (max_bound A sigma m ps _ ids _ (- lo) Rd Us Hs Hd) with (5 := S0); auto.
    + eapply held_vals; [exact Hh|]. unfold l'. rewrite !map_map. reflexivity.
    + intros c I. unfold l' in I. rewrite map_map in I. apply in_map_iff in I. destruct I as [c' [<- I]]. cbn [fst snd]. pose proof (Hb c' I). lra.
  - apply (max_bound A sigma m ps l ids x hi); auto. intros c I. apply Hb; auto.
Qed.
(** in particular without obtuse angles *)
Theorem C88_acute : forall A (sigma : A -> R) m ps l ids x lo hi, fem_ready m ps -> all_used m -> (forall p, In p ps -> 0 < sigma p) -> 0 < m_depth m -> held m l ids -> pins m ids ->
  never_obtuse m -> (forall c, In c l -> lo <= snd c <= hi) -> settled sigma m l x -> forall i, (i < length (m_points m))%nat -> lo <= x i <= hi.
Proof.
  intros A sigma m ps l ids x lo hi Rd Us Hs Hd Hh Pn NO Hb Sx. eapply C88_between; eauto. apply acute_cotangents; auto. intros p I. left; auto.
Qed.

(** ** C89: an affine field is reproduced *)
(** one conductivity, every node on the border held at the value of an affine function: that function is the solution, and
    the only one *)
Theorem C89_affine : forall A (sigma : A -> R) m ps l ids s a b c, fem_ready m ps -> all_used m -> conforming m -> (forall p, In p ps -> sigma p = s) -> held m l ids ->
  (forall i, (i < length (m_points m))%nat -> ~ In i ids -> surrounded m i) ->
  Forall2 (fun call id => snd call = a + b * px (pos m id) + c * py (pos m id)) l ids ->
  settled sigma m l (fun v => a + b * px (pos m v) + c * py (pos m v)) /\
  (0 < s -> 0 < m_depth m -> pins m ids -> forall x, settled sigma m l x -> forall i, (i < length (m_points m))%nat -> x i = a + b * px (pos m i) + c * py (pos m i)).
Proof.
  intros A sigma m ps l ids s a b c Rd Us Cf Hs Hh Sr Va. set (f := fun v => a + b * px (pos m v) + c * py (pos m v)).
  assert (Vf : forall id v, In (id, v) (combine ids (map snd l)) -> f id = v).
  { clear - Va. unfold f. intros id v. induction Va as [|q i l ids E F IH]; [intros []|]. cbn [map combine]. intros [I|I]; auto. injection I as <- <-. auto. }
  assert (Sf : settled sigma m l f).
  { apply (settled_iff A sigma m ps l ids f Rd Us Hh). split; auto. intros i Hi NI. rewrite (F2_map_fst _ _ _ _ (proj1 Hh)) in NI. apply (patch m sigma ps s); auto. }
  split; [exact Sf|]. intros H0 Hd Pn x Sx i Hi.
  assert (Hs' : forall p, In p ps -> 0 < sigma p) by (intros p I; rewrite Hs; auto).
  apply (settled_ids A sigma m ps l ids x Rd Us Hh) in Sx. apply (settled_ids A sigma m ps l ids f Rd Us Hh) in Sf. destruct Sx as [X1 X2], Sf as [F1 F2].
  destruct (Req_dec (x i - f i) 0) as [Z|Z]; [fold (f i); lra|]. exfalso.
  assert (Z0 : forall j, In j ids -> x j - f j = 0). { intros j I. destruct (id_call A m l ids j Hh I) as [q [_ I2]]. rewrite (X1 _ _ I2), (F1 _ _ I2). ring. }
  assert (P := Kc_definite A sigma m ps ids Rd Us Hs' Hd Pn (fun v => x v - f v) Z0 (ex_intro _ i (conj Hi Z))).
  rewrite quad_act in P. rewrite (cross_zero _ _ ids) in P; [lra| |exact Z0].
  intros j Hj NJ. rewrite (act_ext _ _ _ (fun v => 1 * x v + (-1) * f v)) by (intros; ring). rewrite act_lin, X2, F2 by auto. ring.
Qed.

(** ** C90: power *)
(** of all node voltages with the imposed values the solution dissipates the least power, and no others dissipate as little *)
Theorem C90_least : forall A (sigma : A -> R) m ps l ids x y w w', fem_ready m ps -> all_used m -> (forall p, In p ps -> 0 < sigma p) -> 0 < m_depth m -> held m l ids -> pins m ids ->
  settled sigma m l x -> Forall2 (fun c id => y id = snd c) l ids -> dissipates sigma m ps x w -> dissipates sigma m ps y w' ->
  w <= w' /\ (w' <= w -> forall i, (i < length (m_points m))%nat -> y i = x i).
Proof.
  intros A sigma m ps l ids x y w w' Rd Us Hs Hd Hh Pn Sx Vy Dx Dy. apply dissipates_quad in Dx; auto. apply dissipates_quad in Dy; auto. subst w w'.
  apply (settled_ids A sigma m ps l ids x Rd Us Hh) in Sx. destruct Sx as [X1 X2].
  assert (Ey : forall i, In i ids -> y i = x i).
  { intros i I. destruct (id_call A m l ids i Hh I) as [q [_ I2]]. rewrite (X1 _ _ I2). clear - Vy I2 Hh. destruct Hh as [_ ND]. induction Vy as [|c id l ids E F IH]; [destruct I2|].
    cbn [map combine] in I2. destruct I2 as [E2|I2]; [injection E2 as <- <-; auto|apply IH; auto]. apply NoDup_cons_iff in ND; apply ND. }
  rewrite (quad_least _ _ (Kc_sym A sigma m ps) ids x y X2 Ey). assert (P := Kc_nonneg A sigma m ps Rd (fun p I => Rlt_le _ _ (Hs p I)) (Rlt_le _ _ Hd) (fun v => y v - x v)).
  split; [lra|]. intros L i Hi. destruct (Req_dec (y i - x i) 0) as [Z|Z]; [lra|]. exfalso.
  assert (P2 := Kc_definite A sigma m ps ids Rd Us Hs Hd Pn (fun v => y v - x v) (fun j I => ltac:(cbn beta; rewrite Ey by auto; ring)) (ex_intro _ i (conj Hi Z))). lra.
Qed.
(** raising conductivities never lowers the power drawn from the same electrodes *)
Theorem C90_raise : forall A (s1 s2 : A -> R) m ps l ids x y w w', fem_ready m ps -> all_used m -> (forall p, In p ps -> 0 <= s1 p <= s2 p) -> 0 <= m_depth m -> held m l ids ->
  settled s1 m l x -> settled s2 m l y -> dissipates s1 m ps x w -> dissipates s2 m ps y w' -> w <= w'.
Proof.
  intros A s1 s2 m ps l ids x y w w' Rd Us Hs Hd Hh Sx Sy Dx Dy. apply dissipates_quad in Dx; auto. apply dissipates_quad in Dy; auto. subst w w'.
  apply (settled_ids A s1 m ps l ids x Rd Us Hh) in Sx. apply (settled_ids A s2 m ps l ids y Rd Us Hh) in Sy. destruct Sx as [X1 X2], Sy as [Y1 Y2].
  assert (Ey : forall i, In i ids -> y i = x i) by (intros i I; destruct (id_call A m l ids i Hh I) as [q [_ I2]]; rewrite (X1 _ _ I2), (Y1 _ _ I2); reflexivity).
  apply Rle_trans with (quad (length (m_points m)) (Kc s1 m ps) y); [|apply quad_mono; auto; intros; apply Hs; auto].
  rewrite (quad_least _ _ (Kc_sym A s1 m ps) ids x y X2 Ey). assert (P := Kc_nonneg A s1 m ps Rd (fun p I => proj1 (Hs p I)) Hd (fun v => y v - x v)). lra.
Qed.
(** no current leaves a node that is not held, the currents of the electrodes add up to zero, and voltage times current
    adds up to the power *)
Theorem C90_currents : forall A (sigma : A -> R) m ps l ids x w cs, fem_ready m ps -> all_used m -> held m l ids -> settled sigma m l x -> dissipates sigma m ps x w ->
  Forall2 (leaves sigma m ps x) ids cs ->
  (forall i c, (i < length (m_points m))%nat -> ~ In i ids -> leaves sigma m ps x i c -> c = 0) /\
  suml cs (fun c => c) = 0 /\ w = suml (combine (map snd l) cs) (fun vc => fst vc * snd vc).
Proof.
  intros A sigma m ps l ids x w cs Rd Us Hh Sx Dx Cu. apply dissipates_quad in Dx; auto. apply (settled_ids A sigma m ps l ids x Rd Us Hh) in Sx. destruct Sx as [X1 X2].
  split; [intros i c Hi NI L; apply leaves_act in L; auto; rewrite L; auto|].
  set (K := Kc sigma m ps) in *. set (n := length (m_points m)) in *.
  assert (Cs : cs = map (act n K x) ids).
  { assert (Rg : forall i, In i ids -> (i < n)%nat) by (intros i I; eapply id_range; eauto). clear - Cu Rg Rd. induction Cu as [|i c ids cs L F IH]; [reflexivity|]. cbn. f_equal; [apply leaves_act in L; auto; apply Rg; left; auto|apply IH; intros; apply Rg; right; auto]. }
  assert (SI : forall h : nat -> R, (forall i, (i < n)%nat -> ~ In i ids -> h i = 0) -> sumn n h = suml ids h).
  { assert (Rg : forall i, In i ids -> (i < n)%nat) by (intros i I; eapply id_range; eauto). destruct Hh as [_ ND]. clear - Rg ND.
    intros h. revert h. induction ids as [|i ids IH]; intros h Z; [apply sumn_0; intros; apply Z; auto|]. apply NoDup_cons_iff in ND. destruct ND as [NI ND].
    rewrite suml_cons. rewrite <- (sumn_delta n i h) by (apply Rg; left; auto).
    rewrite (suml_ext _ ids h (fun j => if Nat.eqb j i then 0 else h j)) by (intros j Ij; destruct (Nat.eqb_spec j i); [subst; contradiction|auto]).
    rewrite <- IH; [|auto|intros; apply Rg; right; auto|].
    - rewrite <- sumn_plus. apply sumn_ext. intros j _. destruct (Nat.eqb j i); ring.
    - intros j Hj NJ. destruct (Nat.eqb_spec j i); auto. apply Z; auto. cbn. intuition. }
  split.
  - rewrite Cs, suml_map, <- SI; auto. unfold act. rewrite sumn_exchange. apply sumn_0. intros j Hj. rewrite sumn_scal_r.
    rewrite (sumn_ext n _ (K j)) by (intros; apply Kc_sym). unfold K, n. rewrite Kc_rows by auto. ring.
  - rewrite Dx, Cs, quad_act. rewrite SI by (intros; rewrite X2 by auto; ring). clear - X1 Hh. destruct Hh as [F _].
    induction F as [|c id l ids C F IH]; [reflexivity|]. cbn [map combine]. rewrite !suml_cons. cbn [fst snd]. rewrite (X1 id (snd c)) by (left; reflexivity). rewrite IH; [reflexivity|]. intros; apply X1; right; auto.
Qed.

(** ** examples *)
Lemma at_node : forall A (m : mesh ROps A) i, (i < length (m_points m))%nat -> (forall j, (j < length (m_points m))%nat -> j <> i -> pos m j <> pos m i) -> closest (m_points m) (pos m i) i.
Proof.
  intros A m i Hi H. assert (Z : forall p q : pt, p <> q -> 0 < dist p q). { intros p q N. destruct (Rle_lt_or_eq_dec _ _ (dist_nonneg p q)) as [L|L]; auto. exfalso. apply N, dist_zero; auto. }
  split; auto. change (nth i (m_points m) org) with (pos m i). rewrite dist_self. split; [intros; apply dist_nonneg|]. intros j Hj. apply Z. intros E. apply (H j); [lia|lia|auto].
Qed.
Ltac far := let E := fresh in intros E; pose proof (f_equal px E); pose proof (f_equal py E); cbn [pos nth m_points sqm star4] in *; rewrite ?px_P, ?py_P in *; lra.
Definition half : nat -> R := fun v => nth v [0; 1 / 2; 1; 1 / 2] 0.
Lemma sqm_turns : tri_turn sqm (0, 1, 2)%nat = 4 /\ tri_turn sqm (0, 2, 3)%nat = 4.
Proof. unfold tri_turn, turn, pos, t0, t1, t2. cbn [fst snd m_points sqm nth]. rewrite !px_P, !py_P. split; ring. Qed.
Lemma sqm_held : held sqm [(P 0 0, 0); (P 2 2, 1)] [0; 2]%nat.
Proof.
  split; [|repeat constructor; cbn; intuition discriminate].
  constructor; [|constructor; [|constructor]]; cbn [fst].
  - apply (at_node R sqm 0); [cbn; lia|]. intros j Hj N. cbn in Hj. destruct j as [|[|[|[|j]]]]; try lia; unfold pos; far.
  - apply (at_node R sqm 2); [cbn; lia|]. intros j Hj N. cbn in Hj. destruct j as [|[|[|[|j]]]]; try lia; unfold pos; far.
Qed.
Lemma sqm_pins : pins sqm [0; 2]%nat.
Proof.
  intros v Hv. exists 0%nat. split; [left; auto|]. cbn in Hv. destruct (Nat.eq_dec v 3) as [->|N].
  - apply (linked_step sqm 0 0 3 (0, 2, 3)%nat); unfold corners, t0, t1, t2; cbn; auto. constructor.
  - apply (linked_step sqm 0 0 v (0, 1, 2)%nat); unfold corners, t0, t1, t2; cbn; auto; [constructor|]. lia.
Qed.
Lemma sqm_K : forall a b, Kc (fun s => s) sqm [3; 5] a b = kloc sqm (0, 1, 2)%nat a b * 6 + kloc sqm (0, 2, 3)%nat a b * 10.
Proof. intros. unfold Kc, elements. cbn [m_tris sqm length seq combine]. rewrite !suml_cons. unfold suml. cbn [fold_right fst snd m_depth sqm]. change (T ROps) with R. ring. Qed.
Ltac klocs := unfold kloc, hatx, haty; destruct sqm_turns as [-> ->]; unfold t0, t1, t2, pos; cbn [fst snd m_points sqm nth Nat.eqb]; rewrite ?px_P, ?py_P, ?(Rabs_right 4) by lra.
Lemma sqm_rows : forall i, (i < 4)%nat -> act 4 (Kc (fun s => s) sqm [3; 5]) half i = nth i [-4; 0; 4; 0] 0.
Proof.
  intros i Hi. unfold act. cbn [sumn]. rewrite !sqm_K. unfold half. destruct i as [|[|[|[|i]]]]; try lia; klocs; cbn [nth]; field.
Qed.
Lemma sqm_settled : settled (fun s => s) sqm [(P 0 0, 0); (P 2 2, 1)] half /\ dissipates (fun s => s) sqm [3; 5] half 4.
Proof.
  destruct sqm_ready as [Rd Us]. split.
  - apply (settled_iff R _ sqm [3; 5] _ _ _ Rd Us sqm_held). split.
    + intros id v [I|[I|[]]]; injection I as <- <-; reflexivity.
    + intros i Hi NI. cbn in Hi. cbn in NI. change (length (m_points sqm)) with 4%nat. rewrite sqm_rows by auto. destruct i as [|[|[|[|i]]]]; try lia; try reflexivity; exfalso; apply NI; auto.
  - apply dissipates_quad; auto. change (length (m_points sqm)) with 4%nat. rewrite quad_act. cbn [sumn]. rewrite !sqm_rows by lia. unfold half. cbn [nth]. field.
Qed.
(** a diagonal across a plate of two materials: the hypotheses of C87 and C90 are met, also when the plate is turned by 90
    degrees, doubled in size and moved *)
Definition turned (p : pt) : pt := P (7 - 2 * py p) (2 * px p - 1).
Example C87_met : fem_ready sqm [3; 5] /\ all_used sqm /\ held sqm [(P 0 0, 0); (P 2 2, 1)] [0; 2]%nat /\ settled (fun s => s) sqm [(P 0 0, 0); (P 2 2, 1)] half /\
  dissipates (fun s => s) sqm [3; 5] half 4 /\ similarity 2 turned /\ m_depth sqm <> 0.
Proof.
  split; [apply sqm_ready|]. split; [apply sqm_ready|]. split; [apply sqm_held|]. split; [apply sqm_settled|]. split; [apply sqm_settled|]. split; [|cbn; lra].
  split; [lra|]. intros p q. unfold dist, turned. rewrite !px_P, !py_P. rewrite <- (sqrt_square 2) at 9 by lra. rewrite <- sqrt_mult; [f_equal; ring|lra|].
  pose proof (sq_nonneg (px p - px q)). pose proof (sq_nonneg (py p - py q)). lra.
Qed.
Example C88_met : never_obtuse sqm /\ pins sqm [0; 2]%nat /\ (forall p, In p [3; 5] -> 0 < p) /\ 0 < m_depth sqm /\ (forall c, In c [(P 0 0, 0); (P 2 2, 1)] -> 0 <= snd c <= 1) /\ 0 < half 1 < 1.
Proof.
  split; [|split; [apply sqm_pins|split; [intros p [<-|[<-|[]]]; lra|split; [cbn; lra|split; [intros c [<-|[<-|[]]]; cbn; lra|unfold half; cbn; lra]]]]].
  intros t a b c It Ia Ib Ic N1 N2. cbn in It. unfold corners, t0, t1, t2 in *. cbn [In] in Ia, Ib, Ic.
  destruct It as [<-|[<-|[]]]; cbn [fst snd] in *; destruct Ia as [<-|[<-|[<-|[]]]], Ib as [<-|[<-|[<-|[]]]], Ic as [<-|[<-|[<-|[]]]]; try congruence;
    unfold pos; cbn [m_points sqm nth]; rewrite !px_P, !py_P; lra.
Qed.
(** one triangle with an obtuse angle: a node below both imposed voltages *)
Definition obt : mesh ROps R := @mkMesh ROps R org 0 0 1 [P 0 0; P 2 1; P (-2) 1] [] [(0, 1, 2)]%nat [O] (mkD [1] [] [] [] []).
Definition dip : nat -> R := fun v => nth v [0; 1; - (3 / 5)] 0.
Lemma obt_turn : tri_turn obt (0, 1, 2)%nat = 4.
Proof. unfold tri_turn, turn, pos, t0, t1, t2. cbn [fst snd m_points obt nth]. rewrite !px_P, !py_P. ring. Qed.
Lemma obt_ready : fem_ready obt [1] /\ all_used obt /\ conforming obt.
Proof.
  assert (F : Forall (tri_in 3) (m_tris obt)) by (repeat constructor; cbn; lia).
  assert (Pr : proper obt) by (unfold proper; cbn [m_tris obt]; repeat constructor; rewrite obt_turn; lra).
  split; [split; [split; [exact F|split; [reflexivity|unfold is_u32; cbn; lia]]|split; [repeat constructor|split; [intros v; apply deg_small; cbn; lia|exact Pr]]]|].
  split; [intros v Hv; cbn in Hv; destruct v as [|[|[|v]]]; [vm_compute; lia..|lia]|].
  split; [exact F|]. split; [exact Pr|]. split.
  - intros i j t t' p Hi Hj N _ _. cbn [m_tris obt] in Hi, Hj. destruct i as [|[|i]], j as [|[|j]]; try discriminate; congruence.
  - intros t v [<-|[]] Hv _. cbn in Hv. unfold corners, t0, t1, t2. cbn [fst snd In]. lia.
Qed.
Lemma obt_held : held obt [(P 0 0, 0); (P 2 1, 1)] [0; 1]%nat.
Proof.
  assert (N01 : forall i j, (i < 3)%nat -> (j < 3)%nat -> j <> i -> pos obt j <> pos obt i).
  { intros i j Hi Hj N E. pose proof (f_equal px E) as E1. pose proof (f_equal py E) as E2. unfold pos in *. cbn [m_points obt] in *.
    destruct i as [|[|[|i]]], j as [|[|[|j]]]; try lia; cbn [nth] in E1, E2; rewrite !px_P in E1; rewrite !py_P in E2; lra. }
  split; [|repeat constructor; cbn; intuition discriminate]. constructor; [|constructor; [|constructor]]; cbn [fst].
  - apply (at_node R obt 0); [cbn; lia|]. intros j Hj N. cbn in Hj. apply N01; auto; lia.
  - apply (at_node R obt 1); [cbn; lia|]. intros j Hj N. cbn in Hj. apply N01; auto; lia.
Qed.
Lemma obt_settled : settled (fun s => s) obt [(P 0 0, 0); (P 2 1, 1)] dip.
Proof.
  destruct obt_ready as [Rd [Us _]]. apply (settled_iff R _ obt [1] _ _ _ Rd Us obt_held). split.
  - intros id v [I|[I|[]]]; injection I as <- <-; reflexivity.
  - intros i Hi NI. cbn in Hi. cbn in NI. assert (i = 2)%nat as -> by lia. unfold act. change (length (m_points obt)) with 3%nat. cbn [sumn].
    unfold Kc, elements. cbn [m_tris obt length seq combine]. rewrite !suml_cons. unfold suml. cbn [fold_right fst snd m_depth obt]. change (T ROps) with R.
    unfold dip, kloc, hatx, haty. rewrite obt_turn. unfold t0, t1, t2, pos. cbn [fst snd m_points obt nth Nat.eqb]. rewrite ?px_P, ?py_P, ?(Rabs_right 4) by lra. field.
Qed.
(** C88 fails on a conforming mesh as soon as an angle is obtuse: 0 V and 1 V imposed, -0.6 V at the third node *)
Theorem C88_refuted : exists (m : mesh ROps R) ps l ids x, fem_ready m ps /\ all_used m /\ conforming m /\ (forall p, In p ps -> 0 < p) /\ 0 < m_depth m /\ held m l ids /\ pins m ids /\
  (forall c, In c l -> 0 <= snd c <= 1) /\ settled (fun s => s) m l x /\ exists i, (i < length (m_points m))%nat /\ x i < 0.
Proof.
  exists obt, [1], [(P 0 0, 0); (P 2 1, 1)], [0; 1]%nat, dip. destruct obt_ready as [Rd [Us Cf]].
  split; [exact Rd|]. split; [exact Us|]. split; [exact Cf|]. split; [intros p [<-|[]]; lra|]. split; [cbn; lra|]. split; [apply obt_held|]. split.
  { intros v Hv. exists 0%nat. split; [left; auto|]. cbn in Hv. apply (linked_step obt 0 0 v (0, 1, 2)%nat); unfold corners, t0, t1, t2; cbn; auto; [constructor|]. lia. }
  split; [intros c [<-|[<-|[]]]; cbn; lra|]. split; [apply obt_settled|]. exists 2%nat. split; [cbn; lia|]. unfold dip. cbn [nth]. lra.
Qed.
(** a square of four triangles with the corners held at 1 + 2 x - 3 y *)
Definition slope : nat -> R := fun v => 1 + 2 * px (pos star4 v) + - (3) * py (pos star4 v).
Definition slope_calls : list (pt * R) := [(P 0 0, 1); (P 2 0, 5); (P 2 2, -1); (P 0 2, -5)].
Example C89_met : fem_ready star4 [1; 1; 1; 1] /\ all_used star4 /\ conforming star4 /\ (forall p, In p [1; 1; 1; 1] -> p = 1) /\ held star4 slope_calls [0; 1; 2; 3]%nat /\
  (forall i, (i < length (m_points star4))%nat -> ~ In i [0; 1; 2; 3]%nat -> surrounded star4 i) /\
  Forall2 (fun call id => snd call = 1 + 2 * px (pos star4 id) + - (3) * py (pos star4 id)) slope_calls [0; 1; 2; 3]%nat /\ pins star4 [0; 1; 2; 3]%nat /\ slope 4 = 0.
Proof.
  assert (F : Forall (tri_in 5) (m_tris star4)) by (repeat constructor; cbn; lia).
  assert (Pr : proper star4) by (unfold proper; cbn [m_tris star4]; repeat constructor; unfold tri_turn, turn, pos, t0, t1, t2; cbn [fst snd m_points star4 nth]; rewrite !px_P, !py_P; lra).
  assert (Rd : fem_ready star4 [1; 1; 1; 1]) by (split; [split; [exact F|split; [reflexivity|unfold is_u32; cbn; lia]]|split; [repeat constructor|split; [intros v; apply deg_small; cbn; lia|exact Pr]]]).
  assert (Us : all_used star4) by (intros v Hv; cbn in Hv; destruct v as [|[|[|[|[|v]]]]]; [vm_compute; lia..|lia]).
  assert (N01 : forall i j, (i < 5)%nat -> (j < 5)%nat -> j <> i -> pos star4 j <> pos star4 i).
  { intros i j Hi Hj N E. pose proof (f_equal px E) as E1. pose proof (f_equal py E) as E2. unfold pos in *. cbn [m_points star4] in *.
    destruct i as [|[|[|[|[|i]]]]]; try lia; destruct j as [|[|[|[|[|j]]]]]; try lia; cbn [nth] in E1, E2; rewrite !px_P in E1; rewrite !py_P in E2; lra. }
  split; [exact Rd|]. split; [exact Us|]. split; [|split; [intros p [<-|[<-|[<-|[<-|[]]]]]; auto|split; [|split; [|split; [|split]]]]].
  - split; [exact F|]. split; [exact Pr|]. split.
    + intros i j t t' p Hi Hj N O1 O2. cbn [m_tris star4] in Hi, Hj.
      destruct O1 as [u [v [w [Hu [Hv [Hw [S1 [X1 Y1]]]]]]]]. destruct O2 as [u' [v' [w' [Hu' [Hv' [Hw' [S2 [X2 Y2]]]]]]]].
      destruct i as [|[|[|[|i]]]]; cbn in Hi; [| | | |destruct i; discriminate]; injection Hi as <-;
      (destruct j as [|[|[|[|j]]]]; cbn in Hj; [| | | |destruct j; discriminate]; injection Hj as <-; try congruence);
      unfold t0, t1, t2, pos in *; cbn [fst snd m_points star4 nth] in *; rewrite !px_P in X1, X2; rewrite !py_P in Y1, Y2; lra.
    + intros t v It Hv [a [b [c [Ha [Hb [Hc [S1 [X1 Y1]]]]]]]]. cbn in Hv. cbn [m_tris star4 In] in It. unfold corners, t0, t1, t2, pos in *.
      destruct It as [<-|[<-|[<-|[<-|[]]]]]; destruct v as [|[|[|[|[|v]]]]]; try lia; cbn [fst snd m_points star4 nth In] in *; auto; rewrite !px_P in X1; rewrite !py_P in Y1; exfalso; lra.
  - split; [|repeat constructor; cbn; intuition discriminate].
    repeat (constructor; [cbn [fst]; match goal with |- closest _ _ ?i => apply (at_node R star4 i); [cbn; lia|]; intros j Hj Nj; cbn in Hj; apply N01; auto; lia end|]). constructor.
  - intros i Hi NI. cbn in Hi, NI. assert (i = 4)%nat as -> by lia. intros b Nb. unfold sharing. cbn [m_tris star4 filter]. unfold corner_of, corners, t0, t1, t2. cbn [existsb fst snd].
    destruct b as [|[|[|[|[|b]]]]]; cbn; congruence.
  - unfold slope_calls. repeat constructor; unfold pos; cbn [snd m_points star4 nth]; rewrite px_P, py_P; ring.
  - intros v Hv. exists (if Nat.leb v 2 then 1 else 3)%nat. cbn in Hv. destruct v as [|[|[|[|[|v]]]]]; try lia; cbn; (split; [auto 6|]).
    + apply (linked_step star4 1 1 0 (4, 0, 1)%nat); unfold corners, t0, t1, t2; cbn; auto. constructor.
    + constructor.
    + apply (linked_step star4 1 1 2 (4, 1, 2)%nat); unfold corners, t0, t1, t2; cbn; auto. constructor.
    + constructor.
    + apply (linked_step star4 3 3 4 (4, 2, 3)%nat); unfold corners, t0, t1, t2; cbn; auto. constructor.
  - unfold slope, pos. cbn [m_points star4 nth]. rewrite px_P, py_P. ring.
Qed.
(** 4 W at 1 V: 4 A enter at one electrode and leave at the other; other node voltages with the same electrodes take more *)
Example C90_met : pins sqm [0; 2]%nat /\ Forall2 (leaves (fun s => s) sqm [3; 5] half) [0; 2]%nat [-4; 4] /\
  Forall2 (fun c id => nth id [0; 0; 1; 0] 0 = snd c) [(P 0 0, 0); (P 2 2, 1)] [0; 2]%nat /\
  dissipates (fun s => s) sqm [3; 5] (fun id => nth id [0; 0; 1; 0] 0) 8 /\ (forall p, In p [3; 5] -> 0 <= p <= 2 * p).
Proof.
  destruct sqm_ready as [Rd Us]. split; [apply sqm_pins|]. split.
  - constructor; [|constructor; [|constructor]]; (apply leaves_act; [exact Rd|cbn; lia|]); change (length (m_points sqm)) with 4%nat; rewrite sqm_rows by lia; reflexivity.
  - split; [repeat constructor|]. split; [|intros p [<-|[<-|[]]]; lra].
    apply dissipates_quad; auto. change (length (m_points sqm)) with 4%nat. unfold quad. cbn [sumn nth]. rewrite !sqm_K. klocs. field.
Qed.

Print Assumptions C87_superposition.
Print Assumptions C87_scale.
Print Assumptions C87_similar.
Print Assumptions C88_between.
Print Assumptions C88_acute.
Print Assumptions C88_refuted.
Print Assumptions C89_affine.
Print Assumptions C90_least.
Print Assumptions C90_raise.
Print Assumptions C90_currents.
