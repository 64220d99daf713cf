(** Property C85: the assembly with cotangent weights.  Vocabulary in CotSpec.v, model in MeshModel.v. *)
From Coq Require Import String.
From Coq Require Import List Arith ZArith NArith Bool Lia Reals Lra.
From Verif Require Import Base SumR AlgebraModel AlgebraSpec Algebra_bridge GeometryModel GeometrySpec Geometry_proofs DrawingModel DrawingSpec
  MeshModel MeshSpec Adjacency_proofs Fem_proofs Energy_proofs RefineSpec CotSpec Cot_proofs.
Import ListNotations.
Local Open Scope R_scope.

(** ** C85: what the cotangent weights add up to *)
(** what the call needs: the mesh is ready for assembly, no vertex has more than nine triangles, no side more than two,
    and sine, cosine and arc tangent are the true functions *)
Definition cot_ready {A} (lm : libm ROps) (m : mesh ROps A) (ps : list A) : Prop :=
  exact_libm lm /\ exact_atan2 lm /\ fem_ready m ps /\ (forall v, (degree (m_tris m) v <= 9)%nat) /\ planar m.

Lemma two_weight : forall A (m : mesh ROps A) a b, planar m -> a <> b ->
  (inner_side m a b -> INR (length (sharing m a b)) * wt m a b = suml (sharing m a b) (opposite m a b)) /\
  (~ inner_side m a b -> INR (length (sharing m a b)) * wt m a b = 0).
Proof.
  intros A m a b PL N. specialize (PL a b N). unfold inner_side, wt. destruct (sharing m a b) as [|x [|y [|z l]]]; cbn in *; split; intros H; try lia; try congruence; try ring; try field.
Qed.

(** the call succeeds; a side between two triangles gets the sum of the two opposite cotangents, every other pair of
    vertices gets nothing, every row adds up to zero, and the right-hand side is zero *)
Theorem C85_entries : forall A (lm : libm ROps) (m : mesh ROps A) ps, cot_ready lm m ps ->
  exists S, cd_getFemSystemCotangentWeights ROps A lm m = Ok S /\ valid_system S /\ sdim S = length (m_points m) /\
    (forall a b, (a < sdim S)%nat -> (b < sdim S)%nat -> a <> b -> inner_side m a b -> value 0 (sA R S) a b = suml (sharing m a b) (opposite m a b)) /\
    (forall a b, (a < sdim S)%nat -> (b < sdim S)%nat -> a <> b -> ~ inner_side m a b -> value 0 (sA R S) a b = 0) /\
    (forall a, (a < sdim S)%nat -> sumn (sdim S) (value 0 (sA R S) a) = 0) /\
    (forall a, vget (sb R S) a = 0).
Proof.
  intros A lm m ps [E1 [E2 [RD [D9 PL]]]]. destruct (cot_values lm E1 E2 m ps RD D9) as [S [E [VS [LN [OF [DG RB]]]]]].
  exists S. split; auto. split; auto. split; auto. rewrite LN. split; [|split; [|split]].
  - intros a b Ha Hb N I. rewrite OF by auto. apply (two_weight A m a b PL N). auto.
  - intros a b Ha Hb N I. rewrite OF by auto. apply (two_weight A m a b PL N). auto.
  - intros a Ha. rewrite (sumn_ext _ _ (fun b => (if Nat.eqb b a then value 0 (sA R S) a b else 0) + (if Nat.eqb a b then 0 else INR (length (sharing m a b)) * wt m a b))).
    + rewrite sumn_plus, (sumn_delta _ a (value 0 (sA R S) a)) by auto. rewrite DG by auto. ring.
    + intros b Hb. rewrite (Nat.eqb_sym b a). destruct (Nat.eqb_spec a b); [ring|]. rewrite OF by auto. ring.
  - intros a. rewrite RB. unfold vget. destruct (nth_in_or_default a (repeat 0 (length (m_points m))) 0) as [H|H]; auto. apply repeat_spec in H. exact H.
Qed.
Print Assumptions C85_entries.

(** compared with getFemSystem: on a side between two triangles of the conductivity s the finite element entry is
    - s * depth / 2 times the cotangent entry *)
Theorem C85_against_fem : forall A (lm : libm ROps) (m : mesh ROps A) ps sigma s, cot_ready lm m ps -> all_used m ->
  exists S K, cd_getFemSystemCotangentWeights ROps A lm m = Ok S /\ cd_getFemSystem ROps A sigma m = Ok K /\ sdim S = sdim K /\
    (forall a b, (a < sdim S)%nat -> (b < sdim S)%nat -> a <> b ->
       (forall t p, In (t, p) (combine (m_tris m) ps) -> corner_of a t = true -> corner_of b t = true -> sigma p = s) ->
       (inner_side m a b -> value 0 (sA R K) a b = - (s * m_depth m / 2) * value 0 (sA R S) a b) /\
       (border_side m a b -> value 0 (sA R S) a b = 0 /\ value 0 (sA R K) a b = - (s * m_depth m / 2) * suml (sharing m a b) (opposite m a b))).
Proof.
  intros A lm m ps sigma s RDY US. destruct (C85_entries A lm m ps RDY) as [S [E [_ [LS [I [B _]]]]]]. destruct RDY as [_ [_ [RD [_ PL]]]].
  destruct (cd_values m ps sigma RD US) as [K [EK [_ [LK [_ [VK _]]]]]]. exists S, K. split; auto. split; auto. split; [congruence|].
  intros a b Ha Hb N HS. pose proof (fem_side A m ps sigma s a b RD N HS) as FS. rewrite LS in *. split.
  - intros IS. rewrite VK, FS, I by (auto; congruence). reflexivity.
  - intros BS. unfold border_side, inner_side in *. split; [apply B; auto; lia|]. rewrite VK, FS by auto. reflexivity.
Qed.
Print Assumptions C85_against_fem.

(** with one conductivity, the equation of a vertex with triangles all around it is the finite element equation times a
    constant: both have the same solutions when that constant is not zero *)
Theorem C85_inner_vertex : forall A (lm : libm ROps) (m : mesh ROps A) ps sigma s, cot_ready lm m ps -> all_used m -> (forall p, In p ps -> sigma p = s) ->
  exists S K, cd_getFemSystemCotangentWeights ROps A lm m = Ok S /\ cd_getFemSystem ROps A sigma m = Ok K /\ sdim S = sdim K /\
    forall a, (a < sdim S)%nat -> (forall b, b <> a -> ~ border_side m a b) ->
      forall b, (b < sdim S)%nat -> value 0 (sA R K) a b = - (s * m_depth m / 2) * value 0 (sA R S) a b.
Proof.
  intros A lm m ps sigma s RDY US HS. destruct (C85_entries A lm m ps RDY) as [S [E [_ [LS [I [B [RS _]]]]]]].
  destruct (C85_against_fem A lm m ps sigma s RDY US) as [S' [K [E' [EK [LK AF]]]]]. rewrite E in E'. inversion E'; subst S'; clear E'.
  exists S, K. split; auto. split; auto. split; auto. intros a Ha HB.
  destruct RDY as [_ [_ [RD [_ PL]]]]. destruct (cd_energy m ps sigma RD US) as [K' [EK' [_ [LK' [_ [_ [RK _]]]]]]]. rewrite EK in EK'. inversion EK'; subst K'; clear EK'.
  destruct (cd_values m ps sigma RD US) as [K' [EK' [_ [_ [_ [VK _]]]]]]. rewrite EK in EK'. inversion EK'; subst K'; clear EK'.
  assert (OFF : forall b, (b < sdim S)%nat -> b <> a -> value 0 (sA R K) a b = - (s * m_depth m / 2) * value 0 (sA R S) a b).
  { intros b Hb Nb.
    assert (HSP : forall t p, In (t, p) (combine (m_tris m) ps) -> corner_of a t = true -> corner_of b t = true -> sigma p = s) by (intros t p Hin _ _; apply HS; eapply in_combine_r; eauto).
    destruct (Nat.eq_dec (length (sharing m a b)) 2) as [Is|NI]; [apply (AF a b); auto|].
    assert (L0 : sharing m a b = []).
    { specialize (HB b Nb). specialize (PL a b (not_eq_sym Nb)). unfold border_side in HB. destruct (sharing m a b) as [|x l]; auto. cbn in *. lia. }
    rewrite (B a b) by auto. rewrite VK by congruence. rewrite (fem_side A m ps sigma s a b RD (not_eq_sym Nb) HSP), L0. cbn. ring. }
  intros b Hb. destruct (Nat.eq_dec b a) as [->|Nb]; auto.
  specialize (RS a Ha). specialize (RK a ltac:(congruence)). rewrite <- LK', <- LK in RK.
  assert (SP : forall f : nat -> R, sumn (sdim S) f = f a + sumn (sdim S) (fun c => if Nat.eqb c a then 0 else f c)).
  { intros f. rewrite <- (sumn_delta (sdim S) a f Ha), <- sumn_plus. apply sumn_ext. intros c Hc. destruct (Nat.eqb_spec c a); ring. }
  rewrite SP in RS, RK. rewrite (sumn_ext _ (fun c => if Nat.eqb c a then 0 else value 0 (sA R K) a c) (fun c => - (s * m_depth m / 2) * (if Nat.eqb c a then 0 else value 0 (sA R S) a c))) in RK.
  - rewrite sumn_scal in RK. set (q := sumn (sdim S) _) in *. assert (q = - value 0 (sA R S) a a) by lra. rewrite H in RK. lra.
  - intros c Hc. destruct (Nat.eqb_spec c a); [ring|]. apply OFF; auto.
Qed.
Print Assumptions C85_inner_vertex.

(** the claim that both assemblies give the same system is false: one triangle gives a zero matrix instead of the finite
    element matrix, and around an inner vertex the sign is reversed *)
Definition lone : mesh ROps R := @mkMesh ROps R org 0 0 1 [P 0 0; P 1 0; P 0 1] [] [(0, 1, 2)]%nat [O] (mkD [1] [] [] [] []).
Definition star4 : mesh ROps R := @mkMesh ROps R org 0 0 1 [P 0 0; P 2 0; P 2 2; P 0 2; P 1 1] [] [(4, 0, 1); (4, 1, 2); (4, 2, 3); (4, 3, 0)]%nat (repeat O 4) (mkD [1] [] [] [] []).
Lemma degree_small : forall (ts : list tri) n k, Forall (tri_in n) ts -> forallb (fun v => Nat.leb (degree ts v) k) (seq 0 n) = true -> forall v, (degree ts v <= k)%nat.
Proof.
  intros ts n k F H v. rewrite forallb_forall in H. destruct (Nat.lt_ge_cases v n) as [L|L]; [apply Nat.leb_le, H, in_seq; lia|].
  destruct (Nat.eq_dec (degree ts v) 0) as [Z|Z]; [lia|]. assert (v < n)%nat by (apply (degree_out n ts); auto; lia). lia.
Qed.
Lemma lone_ready : forall lm, exact_libm lm -> exact_atan2 lm -> cot_ready lm lone [1] /\ all_used lone.
Proof.
  intros lm E1 E2. assert (F : Forall (tri_in 3) (m_tris lone)) by (repeat constructor; cbn; lia).
  assert (DG : forall v, (degree (m_tris lone) v <= 1)%nat) by (apply (degree_small _ 3); [exact F|reflexivity]).
  split; [split; [auto|split; [auto|split; [|split]]]|].
  - split; [split; [exact F|split; [reflexivity|unfold is_u32; cbn; lia]]|]. split; [repeat constructor|]. split; [intros v; specialize (DG v); lia|].
    repeat constructor. unfold tri_turn, turn, pos, lone, px, py. cbn. lra.
  - intros v. specialize (DG v). lia.
  - intros u v _. unfold sharing. cbn [lone m_tris filter]. destruct (corner_of u _ && corner_of v _); cbn; lia.
  - intros v Hv. cbn in Hv. destruct v as [|[|[|v]]]; [vm_compute; lia..|lia].
Qed.
Lemma star4_ready : forall lm, exact_libm lm -> exact_atan2 lm -> cot_ready lm star4 [1; 1; 1; 1] /\ all_used star4.
Proof.
  intros lm E1 E2. assert (F : Forall (tri_in 5) (m_tris star4)) by (repeat constructor; cbn; lia).
  assert (DG : forall v, (degree (m_tris star4) v <= 4)%nat) by (apply (degree_small _ 5); [exact F|reflexivity]).
  split; [split; [auto|split; [auto|split; [|split]]]|].
  - split; [split; [exact F|split; [reflexivity|unfold is_u32; cbn; lia]]|]. split; [repeat constructor|]. split; [intros v; specialize (DG v); lia|].
    unfold proper. repeat constructor; unfold tri_turn, turn, pos, star4, px, py; cbn; lra.
  - intros v. specialize (DG v). lia.
  - intros u v N. unfold sharing. cbn [star4 m_tris filter]. unfold corner_of, corners, t0, t1, t2. cbn [existsb fst snd].
    destruct u as [|[|[|[|[|u]]]]]; destruct v as [|[|[|[|[|v]]]]]; cbn; try lia; congruence.
  - intros v Hv. cbn in Hv. destruct v as [|[|[|[|[|v]]]]]; [vm_compute; lia..|lia].
Qed.
Theorem C85_same_refuted : forall lm, exact_libm lm -> exact_atan2 lm ->
  (exists S K, cd_getFemSystemCotangentWeights ROps R lm lone = Ok S /\ cd_getFemSystem ROps R (fun x => x) lone = Ok K /\
     (forall a b, (a < 3)%nat -> (b < 3)%nat -> value 0 (sA R S) a b = 0) /\ value 0 (sA R K) 0 1 = - (1 / 2)) /\
  (exists S K, cd_getFemSystemCotangentWeights ROps R lm star4 = Ok S /\ cd_getFemSystem ROps R (fun x => x) star4 = Ok K /\
     value 0 (sA R S) 4 4 = - 8 /\ value 0 (sA R K) 4 4 = 4 /\ value 0 (sA R S) 0 4 = 2 /\ value 0 (sA R K) 0 4 = - 1).
Proof.
  intros lm E1 E2. split.
  - destruct (lone_ready lm E1 E2) as [RDY US]. destruct (C85_entries R lm lone [1] RDY) as [S [E [_ [LS [_ [B [RS _]]]]]]].
    destruct (C85_against_fem R lm lone [1] (fun x => x) 1 RDY US) as [S' [K [E' [EK [_ AF]]]]]. rewrite E in E'. inversion E'; subst S'; clear E'.
    exists S, K. split; auto. split; auto. change (length (m_points lone)) with 3%nat in LS. rewrite LS in *.
    assert (NI : forall a b, ~ inner_side lone a b). { intros a b. unfold inner_side, sharing. cbn [lone m_tris filter]. destruct (corner_of a _ && corner_of b _); cbn; lia. }
    assert (OF : forall a b, (a < 3)%nat -> (b < 3)%nat -> a <> b -> value 0 (sA R S) a b = 0) by (intros; apply B; auto).
    split.
    + intros a b Ha Hb. destruct (Nat.eq_dec a b) as [<-|N]; auto. specialize (RS a Ha).
      destruct a as [|[|[|a]]]; [| | |lia]; cbn [sumn] in RS; [rewrite (OF 0%nat 1%nat), (OF 0%nat 2%nat) in RS by lia|rewrite (OF 1%nat 0%nat), (OF 1%nat 2%nat) in RS by lia|rewrite (OF 2%nat 0%nat), (OF 2%nat 1%nat) in RS by lia]; lra.
    + destruct (AF 0%nat 1%nat) as [_ AB]; [lia|lia|lia|cbn; intros t p [H|[]] _ _; inversion H; reflexivity|].
      destruct AB as [_ ->]; [vm_compute; reflexivity|]. cbn [sharing lone m_tris filter]. unfold corner_of, corners, t0, t1, t2. cbn [existsb fst snd Nat.eqb orb andb].
      rewrite suml_cons. unfold opposite, cotangent, apex, corners, t0, t1, t2. cbn [filter fst snd Nat.eqb negb andb nth]. unfold turn, pos, lone, px, py. cbn. rewrite Rabs_right by lra. field.
  - destruct (star4_ready lm E1 E2) as [RDY US].
    destruct (C85_entries R lm star4 [1; 1; 1; 1] RDY) as [S [E [_ [LS [I [_ [RS _]]]]]]].
    destruct (C85_inner_vertex R lm star4 [1; 1; 1; 1] (fun x => x) 1 RDY US) as [S' [K [E' [EK [_ AF]]]]]; [cbn; intuition|]. rewrite E in E'. inversion E'; subst S'; clear E'.
    exists S, K. split; auto. split; auto. change (length (m_points star4)) with 5%nat in LS. rewrite LS in *.
    assert (V : forall b, (b < 4)%nat -> value 0 (sA R S) 4 b = 2).
    { intros b Hb. rewrite I by (try lia; destruct b as [|[|[|[|b]]]]; try lia; vm_compute; reflexivity).
      destruct b as [|[|[|[|b]]]]; [| | | |lia]; cbn [sharing star4 m_tris filter]; unfold corner_of, corners, t0, t1, t2; cbn [existsb fst snd Nat.eqb orb andb];
      rewrite !suml_cons; unfold opposite, cotangent, apex, corners, t0, t1, t2; cbn [filter fst snd Nat.eqb negb andb nth]; unfold turn, pos, star4, px, py; cbn;
      repeat (first [rewrite Rabs_right by lra|rewrite Rabs_left by lra]); field. }
    assert (D : value 0 (sA R S) 4 4 = - 8). { specialize (RS 4%nat ltac:(lia)). cbn [sumn] in RS. rewrite !V in RS by lia. lra. }
    assert (IB : forall b, b <> 4%nat -> ~ border_side star4 4 b).
    { intros b Nb. unfold border_side. destruct b as [|[|[|[|[|b]]]]]; vm_compute; try lia; congruence. }
    assert (SY : forall M : coo R, value 0 M 0 4 = value 0 M 4 0) by reflexivity.
    rewrite !SY, !(AF 4%nat) by (auto; lia). rewrite !D, V by lia. unfold star4. cbn [m_depth]. repeat split; lra.
Qed.
Print Assumptions C85_same_refuted.

(** the hypotheses are met by the true functions, and by meshes with border sides, inner sides and an inner vertex *)
From Verif Require Import Props_Refine.
Example C85_met : cot_ready rlm2 star4 [1; 1; 1; 1] /\ all_used star4 /\ inner_side star4 4 0 /\ border_side star4 0 1 /\ (forall b, b <> 4%nat -> ~ border_side star4 4 b).
Proof.
  destruct (star4_ready rlm2) as [RDY US]; [repeat split|apply atan2R_exact|]. split; auto. split; auto. split; [vm_compute; reflexivity|]. split; [vm_compute; reflexivity|].
  intros b Nb. unfold border_side. destruct b as [|[|[|[|[|b]]]]]; vm_compute; try lia; congruence.
Qed.
