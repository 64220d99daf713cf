(** Property C84: how the materials of a drawing reach the triangles.  Vocabulary in CarveSpec.v, model in CarveModel.v. *)
From Coq Require Import String.
From Coq Require Import List Arith ZArith Bool Lia Reals Lra.
From Verif Require Import Base AlgebraModel SolversModel GeometryModel GeometrySpec Geometry_proofs DrawingModel MeshModel CarveModel CarveSpec Carve_proofs.
Import ListNotations.

(** ** C84: what the mesher is given *)
(** the arrays hold the points, the segments and the seeds with the numbers of their materials, in the order of the drawing *)
Theorem C84_input : forall o A (d : drawing o A),
  (2 * Z.of_nat (length (points d)) < 2 ^ 31)%Z -> (2 * Z.of_nat (length (segments d)) < 2 ^ 31)%Z -> (4 * Z.of_nat (length (regions d)) < 2 ^ 31)%Z ->
  exists pl sl rl, mesh_input o A d = Ok (pl, sl, rl) /\
    length pl = (2 * length (points d))%nat /\ length sl = (2 * length (segments d))%nat /\ length rl = (4 * length (regions d))%nat /\
    (forall k p, nth_error (points d) k = Some p -> nth_error pl (2 * k) = Some (Some (vx p)) /\ nth_error pl (2 * k + 1) = Some (Some (vy p))) /\
    (forall k s, nth_error (segments d) k = Some s -> nth_error sl (2 * k) = Some (Some (fst s)) /\ nth_error sl (2 * k + 1) = Some (Some (snd s))) /\
    (forall k r, nth_error (regions d) k = Some r -> nth_error rl (4 * k) = Some (Some (vx (fst r))) /\ nth_error rl (4 * k + 1) = Some (Some (vy (fst r))) /\
      nth_error rl (4 * k + 2) = Some (Some (ofZ o (Z.of_nat (snd r))))) /\
    ((3 <= length (points d))%nat -> read_vertices o (length (points d)) pl = Ok (points d)).
Proof.
  intros o A d H1 H2 H3. unfold mesh_input, alloc.
  rewrite !(proj2 (Z.ltb_lt _ _)) by lia. cbn [bind].
  destruct (put_points_spec o (points d) 0 (repeat None (length (points d) * 2))) as [pl [E1 [L1 [_ P1]]]]; [rewrite repeat_length; lia|].
  destruct (put_segments_spec (segments d) 0 (repeat None (length (segments d) * 2))) as [sl [E2 [L2 [_ P2]]]]; [rewrite repeat_length; lia|].
  destruct (put_regions_spec o (regions d) 0 (repeat None (length (regions d) * 4))) as [rl [E3 [L3 [_ P3]]]]; [rewrite repeat_length; lia|].
  rewrite E1. cbn [bind]. rewrite E2. cbn [bind]. rewrite E3. cbn [bind]. rewrite repeat_length in *.
  exists pl, sl, rl. split; auto. split; [lia|]. split; [lia|]. split; [lia|]. split; [exact P1|]. split; [exact P2|]. split.
  - intros k r Hk. destruct (P3 k r Hk) as [X1 [X2 [X3 _]]]. auto.
  - intros H. unfold read_vertices. replace (Nat.ltb (length (points d)) 3) with false by (symmetry; apply Nat.ltb_ge; auto).
    apply map_res_seq. intros k p Hk. destruct (P1 k p Hk) as [X1 X2]. rewrite (read_ok _ _ _ _ X1). cbn [bind].
    rewrite (read_ok _ _ _ _ X2). cbn [bind]. destruct p. reflexivity.
Qed.
Print Assumptions C84_input.
(** drawings with too many points for the sizes in int, and drawings with fewer than three points *)
Theorem C84_sizes : forall o A (d : drawing o A),
  ((2 ^ 31 <= 2 * Z.of_nat (length (points d)))%Z -> is_ub (mesh_input o A d)) /\
  forall b, (length (points d) < 3)%nat -> is_throw (read_vertices o (length (points d)) b).
Proof.
  intros o A d. split.
  - intros H. unfold mesh_input, alloc. replace (Z.ltb (Z.of_nat (length (points d) * 2)) (2 ^ 31)) with false by (symmetry; apply Z.ltb_ge; lia). eexists. reflexivity.
  - intros b H. unfold read_vertices. apply Nat.ltb_lt in H. rewrite H. eexists. reflexivity.
Qed.
Print Assumptions C84_sizes.
(** the mesher reads both coordinates of every vertex: it has read uninitialised or foreign memory exactly if one of them has not been written *)
Theorem C84_unwritten : forall o n (b : list (option (T o))), (3 <= n)%nat ->
  (is_ub (read_vertices o n b) <-> exists i, (i < 2 * n)%nat /\ forall x, nth_error b i <> Some (Some x)) /\
  (is_ok (read_vertices o n b) <-> forall i, (i < 2 * n)%nat -> exists x, nth_error b i = Some (Some x)).
Proof.
  intros o n b H. unfold read_vertices. replace (Nat.ltb n 3) with false by (symmetry; apply Nat.ltb_ge; auto). clear H.
  assert (R : forall i, (exists x, nth_error b i = Some (Some x) /\ read_cell b i = Ok x) \/ (is_ub (read_cell b i) /\ forall x, nth_error b i <> Some (Some x))).
  { intros i. unfold read_cell, get. destruct (nth_error b i) as [[x|]|]; cbn [bind].
    - left. exists x. auto.
    - right. split; [eexists; reflexivity|]. intros x X. discriminate.
    - right. split; [eexists; reflexivity|]. intros x X. discriminate. }
  set (f := fun i => x <- read_cell b (2 * i) ;; y <- read_cell b (2 * i + 1) ;; Ok (@mkV o x y)).
  assert (F : forall i, ((exists p, f i = Ok p) /\ (exists x, nth_error b (2 * i) = Some (Some x)) /\ exists y, nth_error b (2 * i + 1) = Some (Some y)) \/
    (is_ub (f i) /\ exists k, (k < 2)%nat /\ forall x, nth_error b (2 * i + k) <> Some (Some x))).
  { intros i. unfold f. destruct (R (2 * i)%nat) as [[x [X E]]|[[s E] X]]; rewrite E; cbn [bind].
    - destruct (R (2 * i + 1)%nat) as [[y [Y E']]|[[s E'] Y]]; rewrite E'; cbn [bind].
      + left. split; [eexists; reflexivity|]. split; eauto.
      + right. split; [eexists; reflexivity|]. exists 1%nat. split; [lia|exact Y].
    - right. split; [eexists; reflexivity|]. exists 0%nat. split; [lia|]. rewrite Nat.add_0_r. exact X. }
  assert (G : forall m a, (is_ok (map_res f (seq a m)) /\ forall i, (2 * a <= i < 2 * (a + m))%nat -> exists x, nth_error b i = Some (Some x)) \/
    (is_ub (map_res f (seq a m)) /\ exists i, (2 * a <= i < 2 * (a + m))%nat /\ forall x, nth_error b i <> Some (Some x))).
  { induction m as [|m IH]; intros a; cbn [seq map_res].
    - left. split; [eexists; reflexivity|]. intros i I. lia.
    - destruct (F a) as [[[p E] [X Y]]|[[s E] [k [K X]]]]; rewrite E; cbn [bind].
      + destruct (IH (S a)) as [[[l EL] J]|[[s ES] [i [I J]]]]; [rewrite EL|rewrite ES]; cbn [bind].
        * left. split; [eexists; reflexivity|]. intros i I. destruct (Nat.eq_dec i (2 * a)) as [->|N1]; [exact X|]. destruct (Nat.eq_dec i (2 * a + 1)) as [->|N2]; [exact Y|]. apply J. lia.
        * right. split; [eexists; reflexivity|]. exists i. split; [lia|exact J].
      + right. split; [eexists; reflexivity|]. exists (2 * a + k)%nat. split; [lia|exact X]. }
  destruct (G n 0%nat) as [[[l O] J]|[[s U] [i [I J]]]]; [rewrite O|rewrite U].
  - split; split.
    + intros [s X]. discriminate.
    + intros [i [I N]]. destruct (J i ltac:(lia)) as [x X]. destruct (N x X).
    + intros _ i I. apply J. lia.
    + intros _. eexists. reflexivity.
  - split; split.
    + intros _. exists i. split; [lia|exact J].
    + intros _. eexists. reflexivity.
    + intros [x X]. discriminate.
    + intros X. destruct (X i ltac:(lia)) as [x Y]. destruct (J x Y).
Qed.
Print Assumptions C84_unwritten.
(** three vertices, the last coordinate not written *)
Example C84_unwritten_case : is_ub (read_vertices ROps 3 (repeat (Some (IZR 0)) 5 ++ [None])) /\ is_ok (read_vertices ROps 3 (repeat (Some (IZR 0)) 6)).
Proof. split; eexists; reflexivity. Qed.

(** ** C84: the materials *)
(** the call ends; exactly the triangles are removed that the outside reaches without crossing a segment *)
Theorem C84_removed : forall V (zero : V) m l, well_formed m -> (forall t a, In (Some t, a) l -> (t < length m)%nat) ->
  exists dead at_, carve V zero m l = Ok (dead, at_) /\ NoDup dead /\ forall t, In t dead <-> outside m t.
Proof. intros V zero m l WF B. destruct (carve_spec V zero m l WF B) as [dead [at_ [E [ND [OD _]]]]]. exists dead, at_. auto. Qed.
Print Assumptions C84_removed.
(** every other triangle has the material of the last seed from which it is reached without crossing a segment, and the number zero without such a seed *)
Theorem C84_material : forall V (zero : V) m l, well_formed m -> (forall t a, In (Some t, a) l -> (t < length m)%nat) -> l <> [] ->
  exists dead at_, carve V zero m l = Ok (dead, Some at_) /\ length at_ = length m /\ forall t d, (t < length m)%nat -> ~ outside m t ->
    (forall i a, seeded m l i a t -> (forall j b, (i < j)%nat -> ~ seeded m l j b t) -> nth t at_ d = a) /\
    ((forall i a, ~ seeded m l i a t) -> nth t at_ d = zero) /\
    ((exists i a, seeded m l i a t /\ forall j b, (i < j)%nat -> ~ seeded m l j b t) \/ forall i a, ~ seeded m l i a t).
Proof.
  intros V zero m l WF B N. destruct (carve_spec V zero m l WF B) as [dead [at_ [E [ND [OD [_ H]]]]]]. destruct (H N) as [at' [-> [L H']]].
  exists dead, at'. split; auto. split; auto. intros t d Ht Nt. destruct (H' t d Ht Nt) as [[i [a [H1 [H2 H3]]]]|[H1 H2]].
  - split; [|split].
    + intros j b J1 J2. assert (i = j) as ->.
      { destruct (Nat.lt_trichotomy i j) as [C|[C|C]]; auto; [exfalso; exact (H2 j b C J1)|exfalso; exact (J2 i a C H1)]. }
      destruct H1 as [s [S1 _]]. destruct J1 as [s' [S1' _]]. congruence.
    + intros C. exfalso. exact (C i a H1).
    + left. exists i, a. auto.
  - split; [intros i a C; exfalso; exact (H1 i a C)|]. split; auto.
Qed.
Print Assumptions C84_material.
(** two triangles of the same part have the same material *)
Theorem C84_uniform : forall V (zero : V) m l, well_formed m -> mutual m -> (forall t a, In (Some t, a) l -> (t < length m)%nat) -> l <> [] ->
  exists dead at_, carve V zero m l = Ok (dead, Some at_) /\
    forall t u d, (t < length m)%nat -> (u < length m)%nat -> ~ outside m t -> reach m t u -> ~ outside m u /\ nth t at_ d = nth u at_ d.
Proof.
  intros V zero m l WF MU B N. destruct (C84_material V zero m l WF B N) as [dead [at_ [E [L H]]]]. exists dead, at_. split; auto.
  intros t u d Ht Hu Nt R.
  assert (SY : forall a b, reach m a b -> reach m b a).
  { intros a b Q. induction Q as [a|a b c Q IH O]; [constructor|]. eapply reach_trans; [|exact IH]. eapply reach_step; [constructor|]. apply MU. auto. }
  assert (Nu : ~ outside m u) by (intros [s [S1 S2]]; apply Nt; exists s; split; auto; eapply reach_trans; [exact S2|auto]).
  split; auto.
  assert (SE : forall i a, seeded m l i a t <-> seeded m l i a u).
  { intros i a. split; intros [s [S1 S2]]; exists s; split; auto; eapply reach_trans; eauto. }
  destruct (H t d Ht Nt) as [T1 [T2 [[i [a [I1 I2]]]|T3]]]; destruct (H u d Hu Nu) as [U1 [U2 _]].
  - rewrite (T1 i a I1 I2). symmetry. apply (U1 i a); [apply SE; auto|]. intros j b Hj C. apply (I2 j b Hj). apply SE. auto.
  - rewrite T2 by auto. symmetry. apply U2. intros i a C. apply (T3 i a). apply SE. auto.
Qed.
Print Assumptions C84_uniform.
(** a drawing whose seeds were found in the triangles [loc] says: in the end a triangle belongs to the last material drawn in its part, and
    without a seed to the first material that was ever drawn *)
Theorem C84_drawing : forall o A (d : drawing o A) (loc : vec o -> option nat) m, well_formed m -> (forall p t, loc p = Some t -> (t < length m)%nat) -> regions d <> [] ->
  (forall p id, In (p, id) (regions d) -> (id < length (region_map d))%nat) ->
  exists dead at_, carve nat 0 m (map (fun r => (loc (fst r), snd r)) (regions d)) = Ok (dead, Some at_) /\ length at_ = length m /\
    forall t, (t < length m)%nat -> ~ outside m t ->
      (exists i p id v, nth_error (regions d) i = Some (p, id) /\ (exists s, loc p = Some s /\ reach m s t) /\
         (forall j q id', (i < j)%nat -> nth_error (regions d) j = Some (q, id') -> ~ exists s, loc q = Some s /\ reach m s t) /\
         nth_error (region_map d) id = Some v /\ getRegionPtrFromId o A d (nth t at_ 0) = Ok v) \/
      ((forall p id s, In (p, id) (regions d) -> loc p = Some s -> ~ reach m s t) /\
         exists v, nth_error (region_map d) 0 = Some v /\ getRegionPtrFromId o A d (nth t at_ 0) = Ok v).
Proof.
  intros o A d loc m WF HL NE ID. set (l := map (fun r => (loc (fst r), snd r)) (regions d)).
  assert (B : forall t a, In (Some t, a) l -> (t < length m)%nat).
  { intros t a H. apply in_map_iff in H as [[p id] [H _]]. injection H as H _. eapply HL; eauto. }
  assert (NL : l <> []) by (unfold l; destruct (regions d); [congruence|discriminate]).
  destruct (C84_material nat 0 m l WF B NL) as [dead [at_ [E [L H]]]]. exists dead, at_. split; auto. split; auto.
  assert (G : forall id, (id < length (region_map d))%nat -> exists v, nth_error (region_map d) id = Some v /\ getRegionPtrFromId o A d id = Ok v).
  { intros id Hid. destruct (nth_error (region_map d) id) as [v|] eqn:Ev; [|apply nth_error_None in Ev; lia]. exists v. split; auto.
    unfold getRegionPtrFromId. replace (Nat.leb (length (region_map d)) id) with false by (symmetry; apply Nat.leb_gt; auto). apply get_nth. auto. }
  intros t Ht Nt. destruct (H t 0%nat Ht Nt) as [T1 [T2 [[i [a [I1 I2]]]|T3]]].
  - left. pose proof I1 as [s [S1 S2]]. unfold l in S1. rewrite nth_error_map in S1. destruct (nth_error (regions d) i) as [[p id]|] eqn:Er; [|discriminate S1].
    cbn in S1. injection S1 as Lp <-. destruct (G id) as [v [V1 V2]]; [eapply ID; eapply nth_error_In; eauto|].
    exists i, p, id, v. split; auto. split; [exists s; auto|]. split; [|split; auto; rewrite (T1 i id I1 I2); auto].
    intros j q id' Hj Eq [s' [Q1 Q2]]. apply (I2 j id' Hj). exists s'. split; auto. unfold l. rewrite nth_error_map, Eq. cbn. rewrite Q1. reflexivity.
  - right. split.
    + intros p id s Hin Lp R. apply In_nth_error in Hin as [i Ei]. apply (T3 i id). exists s. split; auto. unfold l. rewrite nth_error_map, Ei. cbn. rewrite Lp. reflexivity.
    + rewrite T2 by auto. apply G. destruct (regions d) as [|[p id] rs]; [congruence|]. assert (X : (id < length (region_map d))%nat) by (eapply ID; left; reflexivity). lia.
Qed.
Print Assumptions C84_drawing.
(** without any seed there are no materials, and assembling a mesh with a triangle reads through a null pointer *)
Theorem C84_no_seed : forall V (zero : V) m, well_formed m -> (exists dead, carve V zero m [] = Ok (dead, None)) /\
  forall o A (sigma cur : A -> T o) (x : mesh o A), m_attrs x = [] -> m_tris x <> [] -> is_ub (cd_getFemSystem o A sigma x) /\ is_ub (ms_surface o A cur x).
Proof.
  intros V zero m WF. split.
  - destruct (carve_spec V zero m [] WF) as [dead [at_ [E [_ [_ [N _]]]]]]; [intros t a []|]. exists dead. rewrite E, N by auto. reflexivity.
  - intros o A sigma cur x HA HT. assert (U : is_ub (adjacency o A x)).
    { unfold adjacency. destruct (m_tris x) as [|t ts]; [congruence|]. cbn [push_tris]. unfold push_tri, corners. cbn [forM_list].
      destruct (get (repeat [] (length (m_points x))) (t0 t)) as [r| | |] eqn:E; unfold get in E.
      - cbn [bind]. destruct (nth_error _ _) as [r'|] eqn:E'; [|discriminate E]. injection E as ->. apply nth_error_In, repeat_spec in E'. subst r. cbn [Nat.leb length].
        unfold get at 1. rewrite HA. cbn [nth_error bind]. eexists. reflexivity.
      - destruct (nth_error _ _); discriminate E.
      - cbn [bind]. eexists. reflexivity.
      - destruct (nth_error _ _); discriminate E. }
    destruct U as [s U]. unfold cd_getFemSystem, ms_surface, assemble. rewrite U. cbn [bind]. split; eexists; reflexivity.
Qed.
Print Assumptions C84_no_seed.
(** a point of the drawing whose triangles are all removed stays a node of the mesh: the conduction problem is then refused *)
Lemma push_keep : forall o A (m : mesh o A) v l i tb tb', push_tris o A m l i tb = Ok tb' -> (forall t, In t l -> ~ In v (corners t)) -> nth_error tb' v = nth_error tb v.
Proof.
  intros o A m v l. induction l as [|t l IH]; intros i tb tb' H N; cbn [push_tris] in H; [injection H as <-; auto|].
  destruct (push_tri o A m i t tb) as [tb1| | |] eqn:E; try discriminate H. cbn [bind] in H. rewrite (IH _ _ _ H) by (intros; apply N; right; auto).
  assert (Nt : ~ In v (corners t)) by (apply N; left; auto). clear - E Nt. unfold push_tri in E.
  match type of E with forM_list _ ?f _ = _ => assert (B : forall c s s', f c s = Ok s' -> c <> v -> nth_error s' v = nth_error s v); [|revert B E; generalize f] end.
  { intros c s s' H Nc. destruct (get s c) as [r| | |] eqn:Er; try discriminate H. cbn [bind] in H. destruct (Nat.leb 18 (length r)) eqn:X; try discriminate H.
    destruct (get (m_attrs m) i) as [a| | |]; try discriminate H. cbn [bind] in H. destruct (getRegionPtrFromId o A (m_drawing m) a) as [p| | |]; try discriminate H. cbn [bind] in H.
    unfold push in H. rewrite Er in H. cbn [bind] in H. rewrite X in H. unfold set in H. destruct (Nat.ltb_spec c (length s)) as [L|L]; try discriminate H.
    injection H as <-. rewrite upd_error by auto. destruct (Nat.eqb_spec v c); congruence. }
  intros f B E. revert tb E. induction (corners t) as [|c cs IH]; intros tb E; cbn [forM_list] in E; [injection E as <-; auto|].
  destruct (f c tb) as [tb2| | |] eqn:Ef; try discriminate E. cbn [bind] in E. rewrite (IH (fun C => Nt (or_intror C)) _ E). apply (B c tb tb2 Ef). intros ->. apply Nt. left. auto.
Qed.
Lemma loop_reaches : forall X (f : nat -> X -> res X) n a s s', forM_from n a f s = Ok s' -> forall k, (a <= k < a + n)%nat -> exists x y, f k x = Ok y.
Proof.
  intros X f n. induction n as [|n IH]; intros a s s' H k Hk; [lia|]. cbn [forM_from] in H. destruct (f a s) as [s1| | |] eqn:E; try discriminate H. cbn [bind] in H.
  destruct (Nat.eq_dec k a) as [->|]; [eauto|]. eapply IH; [exact H|lia].
Qed.
Theorem C84_orphan : forall o A (sigma : A -> T o) (x : mesh o A) v, (v < length (m_points x))%nat -> (forall t, In t (m_tris x) -> ~ In v (corners t)) ->
  ~ is_ok (cd_getFemSystem o A sigma x).
Proof.
  intros o A sigma x v Hv N [S E]. unfold cd_getFemSystem, assemble in E. destruct (adjacency o A x) as [tb| | |] eqn:EA; try discriminate E. cbn [bind] in E.
  unfold adjacency in EA. apply push_keep with (v := v) in EA; auto. rewrite nth_error_repeat in EA by auto.
  destruct (loop_reaches _ _ _ _ _ _ E v) as [a [b Q]]; [lia|]. unfold assemble_vertex, get in Q. rewrite EA in Q. cbn in Q. discriminate Q.
Qed.
Print Assumptions C84_orphan.
(** a part of the drawing that is closed off and has no seed: whatever the default material is, it can be another one *)
Definition cells3 : tmesh := [[(None, true); (None, true); (Some 1, true)]; [(Some 0, true); (None, true); (Some 2, true)]; [(Some 1, true); (None, true); (None, true)]]%nat.
Lemma cells3_wf : well_formed cells3.
Proof.
  intros t ss u w H1 H2. destruct t as [|[|[|t]]]; cbn in H1; [| | |destruct t; discriminate H1]; injection H1 as <-; cbn in H2; cbn;
    repeat (destruct H2 as [H2|H2]; [injection H2; intros; subst; try discriminate H2; lia|try discriminate H2]); destruct H2.
Qed.
Theorem C84_default_refuted : forall default : nat, exists (d : drawing ROps nat) loc m dead at_ t v, well_formed m /\ mutual m /\ (t < length m)%nat /\ ~ outside m t /\
  (forall p id s, In (p, id) (regions d) -> loc p = Some s -> (s < length m)%nat /\ ~ reach m s t) /\
  carve nat 0 m (map (fun r => (loc (fst r), snd r)) (regions d)) = Ok (dead, Some at_) /\ getRegionPtrFromId ROps nat d (nth t at_ 0) = Ok v /\ v <> default.
Proof.
  intros default. exists (@mkD ROps nat [S default; default] [(P 0 0, 0); (P 1 0, 1)]%nat [] [] []), (fun p => if Reqb (px p) 0 then Some 0 else Some 1)%nat, cells3, [], [0; 1; 0]%nat, 2%nat, (S default).
  assert (NO : forall a b, ~ open_side cells3 a b).
  { intros a b [ss [H1 H2]]. destruct a as [|[|[|a]]]; cbn in H1; [| | |destruct a; discriminate H1]; injection H1 as <-; cbn in H2; repeat (destruct H2 as [H2|H2]; [discriminate H2|]); destruct H2. }
  assert (NR : forall a b, reach cells3 a b -> a = b) by (intros a b Q; induction Q as [a|a b c Q IH O]; auto; exfalso; exact (NO b c O)).
  split; [exact cells3_wf|]. split; [intros a b O; exfalso; exact (NO a b O)|]. split; [cbn; lia|]. split; [|split; [|split; [|split]]].
  - intros [s [[ss [H1 H2]] _]]. destruct s as [|[|[|s]]]; cbn in H1; [| | |destruct s; discriminate H1]; injection H1 as <-; cbn in H2; repeat (destruct H2 as [H2|H2]; [discriminate H2|]); destruct H2.
  - intros p id s [H|[H|[]]] Hs; injection H as <- <-; rewrite px_P in Hs.
    + unfold Reqb in Hs. destruct (Req_EM_T 0 0) as [_|C]; [|exfalso; apply C; reflexivity]. injection Hs as <-. split; [cbn; lia|]. intros Q. apply NR in Q. lia.
    + unfold Reqb in Hs. destruct (Req_EM_T 1 0) as [C|_]; [exfalso; lra|]. injection Hs as <-. split; [cbn; lia|]. intros Q. apply NR in Q. lia.
  - cbn [regions map fst snd]. rewrite !px_P. unfold Reqb. destruct (Req_EM_T 0 0) as [_|C]; [|exfalso; apply C; reflexivity]. destruct (Req_EM_T 1 0) as [C|_]; [exfalso; lra|]. reflexivity.
  - reflexivity.
  - lia.
Qed.
Print Assumptions C84_default_refuted.
(** three parts with several seeds, one of them outside; in the second mesh the first part is open to the outside *)
Example C84_met : well_formed cells3 /\ ~ outside cells3 0 /\ carve nat 9 cells3 [(Some 0, 3); (Some 2, 4); (None, 5); (Some 0, 6)]%nat = Ok ([], Some [6; 9; 4])%nat.
Proof.
  split; [exact cells3_wf|]. split; [|reflexivity]. intros [s [[ss [H1 H2]] _]].
  destruct s as [|[|[|s]]]; cbn in H1; [| | |destruct s; discriminate H1]; injection H1 as <-; cbn in H2; repeat (destruct H2 as [H2|H2]; [discriminate H2|]); destruct H2.
Qed.
Example C84_open_met : let m := [[(None, false); (Some 1, false); (None, true)]; [(Some 0, false); (None, true); (Some 2, true)]; [(Some 1, true); (None, true); (Some 3, false)]; [(Some 2, false); (None, true); (None, true)]]%nat in
  carve nat 9 m [(Some 1, 3); (Some 3, 4)]%nat = Ok ([0; 1], Some [9; 9; 4; 4])%nat.
Proof. reflexivity. Qed.
Example C84_orphan_met : exists x : mesh ROps R, (3 < length (m_points x))%nat /\ m_tris x <> [] /\ forall t, In t (m_tris x) -> ~ In 3%nat (corners t).
Proof.
  exists (@mkMesh ROps R org 0%R 0%R 1%R [P 0 0; P 4 0; P 0 4; P 9 9]%R [] [(0, 1, 2)]%nat [0]%nat (empty_drawing ROps R)).
  split; [cbn; lia|]. split; [discriminate|]. intros t [<-|[]]. unfold corners. cbn. lia.
Qed.
