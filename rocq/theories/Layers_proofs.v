(** The multilayer system: block structure, interconnections, energy, power density. *)
From Coq Require Import String.
From Coq Require Import List Arith ZArith NArith Bool Lia Reals Lra.
From Verif Require Import Base SumR AlgebraModel AlgebraSpec SolversModel SolversSpec Coo_proofs Csr_proofs System_proofs Algebra_bridge GeometryModel GeometrySpec Geometry_proofs DrawingModel DrawingSpec
  MeshModel MeshSpec MeshGeo_proofs Fem_proofs Energy_proofs Wellposed_proofs LayersModel LayersSpec Voltage_proofs.
Import ListNotations.

Lemma is_u32_lt : forall n m, (n < m)%nat -> is_u32 m -> is_u32 n.
Proof. intros n m H U. eapply is_u32_le; [|exact U]. lia. Qed.

(** ** Writing one position *)
Section Modify.
Context {V : Type}.
Variable v0 : V.
Definition at_pos (i j u v : nat) : bool := Nat.eqb (Nat.min u v) i && Nat.eqb (Nat.max u v) j.
Lemma at_pos_spec : forall i j u v, (i <= j)%nat -> at_pos i j u v = true <-> (u = i /\ v = j) \/ (u = j /\ v = i).
Proof. intros i j u v L. unfold at_pos. rewrite andb_true_iff, !Nat.eqb_eq. lia. Qed.
Lemma modify_value : forall (M : coo V) i j f, valid_coo M -> is_u32 (cm M) -> i <= j -> j < cm M ->
  exists M', coo_modify v0 M i j f = Ok M' /\ valid_coo M' /\ cm M' = cm M /\
    (forall u v, u < cm M -> v < cm M -> value v0 M' u v = if at_pos i j u v then f (value v0 M i j) else value v0 M u v) /\
    (forall u v, touched M u v -> touched M' u v) /\ touched M' i j.
Proof.
  intros M i j f [ND Kv] U Lij Lj. destruct (coo_modify_spec v0 M i j f) as [[L _]|[_ [M' [E [Cm [F [O [ND' I]]]]]]]]; [lia|].
  exists M'. split; auto. split.
  { split; auto. intros k v Hk. assert (Ik : In k (map fst (elems M'))) by (apply in_map_iff; exists (k, v); auto). apply I in Ik. destruct Ik as [->|Ik].
    - exists i, j. rewrite Cm. auto.
    - apply in_map_iff in Ik. destruct Ik as [[k' w] [Ek Ik]]. cbn [fst] in Ek. subst k'. destruct (Kv _ _ Ik) as [a [b [H1 [H2 H3]]]]. exists a, b. rewrite Cm. auto. }
  split; auto. split.
  { intros u v Hu Hv. unfold value. destruct (at_pos i j u v) eqn:P.
    - unfold at_pos in P. apply andb_true_iff in P. destruct P as [P1 P2]. apply Nat.eqb_eq in P1, P2. rewrite P1, P2, F.
      rewrite (Nat.min_l i j), (Nat.max_r i j) by lia. reflexivity.
    - rewrite O; auto. intros Ek. assert (Ux : forall x, x < cm M -> is_u32 x) by (intros; eapply is_u32_lt; eauto).
      apply key_inj in Ek; try (apply Ux; lia). destruct Ek as [E1 E2]. unfold at_pos in P. rewrite E1, E2, !Nat.eqb_refl in P. discriminate P. }
  split.
  - intros u v Ht. unfold touched in *. apply I. auto.
  - unfold touched. apply I. auto.
Qed.

(** ** Copying a matrix to a block *)
Definition in_block (off n u : nat) : bool := Nat.leb off u && Nat.ltb u (off + n).
Lemma in_block_spec : forall off n u, in_block off n u = true <-> off <= u < off + n.
Proof. intros. unfold in_block. rewrite andb_true_iff, Nat.leb_le, Nat.ltb_lt. tauto. Qed.
Lemma merge_elems_ok : forall (f : N * V -> coo V -> res (coo V)) off n,
  (forall kv M, f kv M = coo_modify v0 M (u32 (krow (fst kv) + off)) (u32 (kcol (fst kv) + off)) (fun _ => snd kv)) ->
  forall (l : list (N * V)) (M : coo V), NoDup (map fst l) ->
  (forall k v, In (k, v) l -> exists i j, i <= j /\ j < n /\ k = key i j) -> off + n <= cm M -> is_u32 (cm M) -> valid_coo M ->
  exists M', forM_list l f M = Ok M' /\ valid_coo M' /\ cm M' = cm M /\
    (forall u v, u < cm M -> v < cm M -> value v0 M' u v =
       if in_block off n u && in_block off n v then match find_key l (key (Nat.min u v - off) (Nat.max u v - off)) with Some w => w | None => value v0 M u v end
       else value v0 M u v) /\
    (forall u v, touched M u v -> touched M' u v) /\ (forall a b, In (key a b) (map fst l) -> a <= b -> b < n -> touched M' (off + a) (off + b)).
Proof.
  intros f off n Hf l. induction l as [|[k w] l IH]; intros M ND Kv Hn U W; cbn [forM_list].
  - exists M. split; auto. split; auto. split; auto. split; [|split; [auto|intros ? ? []]].
    intros u v _ _. cbn [find_key]. destruct (_ && _); reflexivity.
  - destruct (Kv k w) as [a [b [L1 [L2 ->]]]]; [cbn; auto|]. rewrite Hf. cbn [fst snd].
    assert (Ux : forall x, x < cm M -> is_u32 x) by (intros; eapply is_u32_lt; eauto).
    rewrite krow_key, kcol_key by (apply Ux; lia). rewrite !u32_id by (apply Ux; lia).
    destruct (modify_value M (a + off) (b + off) (fun _ => w) W U) as [M1 [E1 [W1 [C1 [V1 [T1 T1']]]]]]; [lia|lia|].
    rewrite E1. cbn [bind]. inversion ND as [|? ? NI ND']; subst. cbn [fst] in NI.
    destruct (IH M1 ND') as [M' [E [W' [C' [V' [T' T'']]]]]]; try rewrite C1; auto; [intros; apply (Kv k v); cbn; auto|].
    exists M'. split; auto. split; auto. split; [congruence|]. split; [|split].
    + intros u v Hu Hv. rewrite V' by (rewrite C1; auto). rewrite V1 by auto. cbn [find_key].
      destruct (in_block off n u && in_block off n v) eqn:B.
      * apply andb_true_iff in B. destruct B as [B1 B2]. apply in_block_spec in B1, B2.
        destruct (at_pos (a + off) (b + off) u v) eqn:P.
        { apply at_pos_spec in P; [|lia]. assert (Ek : key (Nat.min u v - off) (Nat.max u v - off) = key a b) by (f_equal; lia). rewrite Ek, N.eqb_refl.
          destruct (find_key l (key a b)) eqn:Fk; auto. apply find_key_in in Fk. exfalso. apply NI. apply in_map_iff. exists (key a b, v1). auto. }
        { destruct (N.eqb_spec (key a b) (key (Nat.min u v - off) (Nat.max u v - off))) as [Ek|Ek]; auto.
          apply key_inj in Ek; try (apply Ux; lia). exfalso. destruct Ek as [E3 E4].
          assert (at_pos (a + off) (b + off) u v = true) by (apply at_pos_spec; lia). congruence. }
      * destruct (at_pos (a + off) (b + off) u v) eqn:P; auto. exfalso. apply at_pos_spec in P; [|lia].
        assert (in_block off n u = true /\ in_block off n v = true) as [B1 B2] by (rewrite !in_block_spec; lia). rewrite B1, B2 in B. discriminate B.
    + intros u v Ht. apply T'. apply T1. exact Ht.
    + intros a' b' [Ek|I] L3 L4.
      * cbn [fst] in Ek. apply key_inj in Ek; try (apply Ux; lia). destruct Ek as [<- <-]. rewrite !(Nat.add_comm off). apply T'. exact T1'.
      * apply T''; auto.
Qed.
End Modify.

(** ** Several layers *)
Local Open Scope R_scope.
(** what the merged system must be: the blocks one after the other *)
Fixpoint blocks (Ss : list rsys) (u v : nat) : R :=
  match Ss with
  | [] => 0
  | S1 :: Ss' =>
      if Nat.ltb u (sdim S1) then (if Nat.ltb v (sdim S1) then value 0 (sA R S1) u v else 0)
      else if Nat.ltb v (sdim S1) then 0 else blocks Ss' (u - sdim S1) (v - sdim S1)
  end.
Fixpoint loads (Ss : list rsys) (u : nat) : R :=
  match Ss with
  | [] => 0
  | S1 :: Ss' => if Nat.ltb u (sdim S1) then vget (sb R S1) u else loads Ss' (u - sdim S1)
  end.
Definition dims (Ss : list rsys) : nat := list_sum (map sdim Ss).

Lemma copy_loop : forall (src : list R) n off (b : list R), (n <= length src)%nat -> (off + n <= length b)%nat ->
  exists b', forM_up n (fun j b => v <- get src j ;; set b (j + off) v) b = Ok b' /\ length b' = length b /\
    forall u, vget b' u = if in_block off n u then vget src (u - off) else vget b u.
Proof.
  intros src n off b H1 H2.
  destruct (forM_up_inv (list R) (fun j b' => length b' = length b /\ forall u, vget b' u = if in_block off j u then vget src (u - off) else vget b u)
    (fun j b => v <- get src j ;; set b (j + off) v) n b) as [b' [E [L K]]].
  - split; auto. intros u. destruct (in_block off 0 u) eqn:B; auto. apply in_block_spec in B. lia.
  - intros j b' Hj [L K]. rewrite (get_lt _ _ _ 0) by lia. cbn [bind]. rewrite set_lt by lia. eexists. split; [reflexivity|]. split; [rewrite upd_length; auto|].
    intros u. unfold vget at 1. destruct (Nat.eq_dec u (j + off)) as [->|N].
    + rewrite nth_upd by lia. rewrite Nat.eqb_refl. assert (in_block off (S j) (j + off) = true) as -> by (apply in_block_spec; lia). unfold vget. f_equal. lia.
    + rewrite nth_upd by lia. destruct (Nat.eqb_spec u (j + off)); [lia|]. change (nth u b' 0) with (vget b' u). rewrite K.
      destruct (in_block off j u) eqn:B.
      * apply in_block_spec in B. assert (in_block off (S j) u = true) as -> by (apply in_block_spec; lia). reflexivity.
      * destruct (in_block off (S j) u) eqn:B'; auto. apply in_block_spec in B'. assert (in_block off j u = true) by (apply in_block_spec; lia). congruence.
  - exists b'. auto.
Qed.
Section Merge.
Context {A : Type}.
Lemma merge_layer_ok : forall (S M : rsys) off, valid_system S -> all_diag_touched (sA R S) -> valid_system M -> (off + sdim S <= sdim M)%nat ->
  exists M', merge_layer ROps off (sdim S) S M = Ok M' /\ valid_system M' /\ sdim M' = sdim M /\
    (forall u v, (u < sdim M)%nat -> (v < sdim M)%nat -> (forall a b, (off <= a < sdim M)%nat -> (off <= b < sdim M)%nat -> value 0 (sA R M) a b = 0) -> value 0 (sA R M') u v =
      if in_block off (sdim S) u && in_block off (sdim S) v then value 0 (sA R S) (u - off) (v - off) else value 0 (sA R M) u v) /\
    (forall u, vget (sb R M') u = if in_block off (sdim S) u then vget (sb R S) (u - off) else vget (sb R M) u) /\
    (forall u, touched (sA R M) u u -> touched (sA R M') u u) /\ (forall i, (i < sdim S)%nat -> touched (sA R M') (off + i) (off + i)).
Proof.
  intros S M off [[NDs Ks] [Cs Us]] DT [Wm [Cm Um]] H. fold (sdim S) in *. fold (sdim M) in *. unfold merge_layer.
  destruct (merge_elems_ok 0 (merge_elem ROps off) off (sdim S) (fun kv M => eq_refl) (elems (sA R S)) (sA R M)) as [A' [E1 [W1 [C1 [V1 [T1 T2]]]]]]; auto;
    [intros k v I; rewrite <- Cs; eauto|lia|rewrite Cm; auto|].
  change (T ROps) with R in *. rewrite E1. cbn [bind].
  destruct (copy_loop (sb R S) (sdim S) off (sb R M)) as [b' [E2 [L2 V2]]]; [unfold sdim; lia|exact H|].
  rewrite E2. cbn [bind]. eexists. split; [reflexivity|]. unfold sdim. cbn [sA sb]. split; [split; [auto|]; cbn [sA sb]; split; [rewrite C1, L2; auto|rewrite L2; auto]|].
  split; auto. split.
  - intros u v Hu Hv Z. rewrite V1 by (rewrite Cm; auto). fold (sdim S). destruct (in_block off (sdim S) u && in_block off (sdim S) v) eqn:B; auto.
    apply andb_true_iff in B. destruct B as [B1 B2]. apply in_block_spec in B1, B2. unfold value at 2.
    replace (Nat.min u v - off)%nat with (Nat.min (u - off) (v - off)) by lia. replace (Nat.max u v - off)%nat with (Nat.max (u - off) (v - off)) by lia.
    destruct (find_key (elems (sA R S)) _); auto. apply Z; lia.
  - split; [exact V2|]. split; [intros; apply T1; auto|]. intros i Hi. apply T2; try (fold (sdim S)); auto. apply DT. rewrite Cs. exact Hi.
Qed.
End Merge.
Section Layers.
Context {A : Type}.
Variable sigma : A -> R.
Definition layer_system (m : mesh ROps A) (S : rsys) : Prop := valid_system S /\ all_diag_touched (sA R S) /\ sdim S = length (m_points m).
Lemma nodes_cons : forall (m : mesh ROps A) ms, nodes (m :: ms) = (length (m_points m) + nodes ms)%nat.
Proof. reflexivity. Qed.
Lemma merge_layers_ok : forall (ms : list (mesh ROps A)) (Ss : list rsys), Forall2 layer_system ms Ss -> forall off (M : rsys), valid_system M -> (off + nodes ms = sdim M)%nat ->
  (forall a b, (a < sdim M)%nat -> (b < sdim M)%nat -> (off <= a \/ off <= b)%nat -> value 0 (sA R M) a b = 0) -> (forall u, (off <= u)%nat -> vget (sb R M) u = 0) ->
  (forall u, (u < off)%nat -> touched (sA R M) u u) ->
  exists M', merge_layers ROps A off ms Ss M = Ok M' /\ valid_system M' /\ sdim M' = sdim M /\
    (forall u v, (u < sdim M)%nat -> (v < sdim M)%nat -> value 0 (sA R M') u v =
       if Nat.ltb u off then (if Nat.ltb v off then value 0 (sA R M) u v else 0) else if Nat.ltb v off then 0 else blocks Ss (u - off) (v - off)) /\
    (forall u, vget (sb R M') u = if Nat.ltb u off then vget (sb R M) u else loads Ss (u - off)) /\
    (forall u, (u < sdim M)%nat -> touched (sA R M') u u).
Proof.
  intros ms Ss F. induction F as [|m S ms Ss [VS [DS LS]] F IH]; intros off M W Hn Z Zb Ht; cbn [merge_layers].
  - cbn in Hn. exists M. split; auto. split; auto. split; auto. split; [|split].
    + intros u v Hu Hv. destruct (Nat.ltb_spec u off), (Nat.ltb_spec v off); auto; try lia.
    + intros u. destruct (Nat.ltb_spec u off); auto.
    + intros u Hu. apply Ht. lia.
  - rewrite nodes_cons in Hn.
    destruct (merge_layer_ok S M off VS DS W) as [M1 [E1 [W1 [L1 [V1 [B1 [T1 T2]]]]]]]; [lia|]. rewrite LS in *.
    change (T ROps) with R. rewrite E1. cbn [bind]. assert (V1' : forall u v, (u < sdim M)%nat -> (v < sdim M)%nat -> value 0 (sA R M1) u v =
      (if in_block off (length (m_points m)) u && in_block off (length (m_points m)) v then value 0 (sA R S) (u - off) (v - off) else value 0 (sA R M) u v)).
    { intros u v Hu Hv. apply V1; auto. intros a b Ha Hb. apply Z; lia. }
    destruct (IH (off + length (m_points m))%nat M1 W1) as [M' [E' [W' [L' [V' [B' T']]]]]].
    + lia.
    + intros a b Ha Hb Hab. rewrite L1 in *. rewrite V1' by auto.
      destruct (in_block off (length (m_points m)) a && in_block off (length (m_points m)) b) eqn:B; [|apply Z; lia].
      apply andb_true_iff in B. rewrite !in_block_spec in B. lia.
    + intros u Hu. rewrite B1. destruct (in_block off (length (m_points m)) u) eqn:B; [apply in_block_spec in B; lia|]. apply Zb. lia.
    + intros u Hu. destruct (Nat.ltb_spec u off) as [H|H]; [apply T1; apply Ht; auto|]. replace u with (off + (u - off))%nat by lia. apply T2. lia.
    + exists M'. split; auto. split; auto. split; [congruence|]. rewrite L1 in *. split; [|split].
      * intros u v Hu Hv. rewrite V' by auto. rewrite V1' by auto. cbn [blocks]. rewrite LS.
        assert (Q : forall w, in_block off (length (m_points m)) w = negb (Nat.ltb w off) && Nat.ltb w (off + length (m_points m))).
        { intros w. unfold in_block. f_equal. destruct (Nat.leb_spec off w), (Nat.ltb_spec w off); auto; lia. }
        rewrite !Q. assert (Q' : forall w, (off <= w)%nat -> Nat.ltb (w - off) (length (m_points m)) = Nat.ltb w (off + length (m_points m))).
        { intros w Hw. destruct (Nat.ltb_spec (w - off) (length (m_points m))), (Nat.ltb_spec w (off + length (m_points m))); auto; lia. }
        destruct (Nat.ltb_spec u off), (Nat.ltb_spec v off); cbn [negb andb]; try rewrite (Q' u) by lia; try rewrite (Q' v) by lia;
          destruct (Nat.ltb_spec u (off + length (m_points m))), (Nat.ltb_spec v (off + length (m_points m))); cbn [andb]; auto; try lia; try (apply Z; lia).
        f_equal; lia.
      * intros u. rewrite B', B1. cbn [loads]. rewrite LS. unfold in_block.
        destruct (Nat.ltb_spec u off), (Nat.leb_spec off u), (Nat.ltb_spec u (off + length (m_points m))), (Nat.ltb_spec (u - off) (length (m_points m))); cbn [andb]; auto; try lia.
        f_equal; lia.
      * intros u Hu. apply T'. auto.
Qed.

(** ** Interconnections *)
Definition conn (u v : nat) (r : R) (M : coo R) : res (coo R) :=
  g <- Rdivr 2 r ;;
  M <- coo_modify 0 M u u (fun x => x + g) ;;
  M <- coo_modify 0 M v v (fun x => x + g) ;;
  h <- Rdivr (-2) r ;;
  if Nat.leb v u then coo_modify 0 M v u (fun _ => h) else coo_modify 0 M u v (fun _ => h).
Definition on2 (u v : nat) (a b : nat) : bool := Nat.eqb a u && Nat.eqb b v || Nat.eqb a v && Nat.eqb b u.
Lemma at_pos_on2 : forall i j u v, (i <= j)%nat -> at_pos i j u v = on2 i j u v.
Proof.
  intros i j u v L. unfold on2. destruct (at_pos i j u v) eqn:E.
  - apply at_pos_spec in E; auto. destruct E as [[-> ->]|[-> ->]]; rewrite !Nat.eqb_refl; cbn; rewrite ?orb_true_r; reflexivity.
  - destruct (_ || _) eqn:E2; auto. assert (at_pos i j u v = true); [|congruence]. apply at_pos_spec; auto.
    rewrite orb_true_iff, !andb_true_iff, !Nat.eqb_eq in E2. tauto.
Qed.
Lemma on2_sym : forall u v a b, on2 v u a b = on2 u v a b.
Proof. intros. unfold on2. apply orb_comm. Qed.
Lemma conn_ok : forall (M : coo R) u v r, valid_coo M -> is_u32 (cm M) -> (u < cm M)%nat -> (v < cm M)%nat -> r <> 0 ->
  exists M', conn u v r M = Ok M' /\ valid_coo M' /\ cm M' = cm M /\ (forall a b, touched M a b -> touched M' a b) /\
    (forall a b, (a < cm M)%nat -> (b < cm M)%nat -> value 0 M' a b =
       if on2 u v a b then - (2 / r) else value 0 M a b + (if on2 u u a b then 2 / r else 0) + (if on2 v v a b then 2 / r else 0)).
Proof.
  intros M u v r W U Hu Hv Hr. unfold conn. rewrite Rdivr_ok by auto. cbn [bind].
  destruct (modify_value 0 M u u (fun x => x + 2 / r) W U) as [M1 [E1 [W1 [C1 [V1 [T1 _]]]]]]; auto. rewrite E1. cbn [bind].
  destruct (modify_value 0 M1 v v (fun x => x + 2 / r) W1) as [M2 [E2 [W2 [C2 [V2 [T2 _]]]]]]; [rewrite C1; auto|auto|rewrite C1; auto|]. rewrite E2. cbn [bind].
  rewrite Rdivr_ok by auto. cbn [bind].
  assert (K : forall i j, (i <= j)%nat -> (j < cm M)%nat -> (forall a b, on2 i j a b = on2 u v a b) ->
    exists M', coo_modify 0 M2 i j (fun _ => -2 / r) = Ok M' /\ valid_coo M' /\ cm M' = cm M /\ (forall a b, touched M a b -> touched M' a b) /\
    (forall a b, (a < cm M)%nat -> (b < cm M)%nat -> value 0 M' a b =
       if on2 u v a b then - (2 / r) else value 0 M a b + (if on2 u u a b then 2 / r else 0) + (if on2 v v a b then 2 / r else 0))).
  { intros i j L Hj Q. destruct (modify_value 0 M2 i j (fun _ => -2 / r) W2) as [M3 [E3 [W3 [C3 [V3 [T3 _]]]]]]; [rewrite C2, C1; auto|auto|rewrite C2, C1; auto|].
    exists M3. split; auto. split; auto. split; [congruence|]. split; [intros; auto|]. intros a b Ha Hb.
    rewrite V3 by (rewrite C2, C1; auto). rewrite at_pos_on2, Q by auto. destruct (on2 u v a b); [field; auto|].
    rewrite V2 by (rewrite C1; auto). rewrite !V1 by (auto; rewrite C1; auto). rewrite !at_pos_on2 by auto.
    destruct (on2 v v a b) eqn:Ov.
    - assert (a = v /\ b = v) as [-> ->] by (unfold on2 in Ov; rewrite orb_true_iff, !andb_true_iff, !Nat.eqb_eq in Ov; tauto).
      destruct (on2 u u v v) eqn:Ou; [|ring]. assert (v = u) by (unfold on2 in Ou; rewrite orb_true_iff, !andb_true_iff, !Nat.eqb_eq in Ou; tauto). subst v. ring.
    - destruct (on2 u u a b) eqn:Ou; [|ring]. assert (a = u /\ b = u) as [-> ->] by (unfold on2 in Ou; rewrite orb_true_iff, !andb_true_iff, !Nat.eqb_eq in Ou; tauto). ring. }
  destruct (Nat.leb_spec v u).
  - apply K; auto. intros. apply on2_sym.
  - apply K; auto. lia.
Qed.
Lemma connect_conn : forall offs l1 l2 n1 n2 (r : R) o1 o2 (M : coo R), nth_error offs l1 = Some o1 -> nth_error offs l2 = Some o2 -> is_u32 (n1 + o1) -> is_u32 (n2 + o2) ->
  connect ROps offs (l1, l2, n1, n2, r) M = conn (n1 + o1) (n2 + o2) r M.
Proof.
  intros offs l1 l2 n1 n2 r o1 o2 M H1 H2 U1 U2. unfold connect. rewrite (get_nth_error _ _ _ _ H1), (get_nth_error _ _ _ _ H2). cbn [bind].
  rewrite !u32_id by auto. unfold conn. cbn [zero one div opp ofZ ROps add]. replace (IZR (-2)) with (-2)%R by reflexivity.
  replace (- (2)) with (-2)%R by lra. reflexivity.
Qed.

(** *** The link-free system *)
Lemma systems_ok : forall (ms : list (mesh ROps A)) pss, Forall2 fem_ready ms pss -> Forall all_used ms ->
  exists Ss, map_res (cd_getFemSystem ROps A sigma) ms = Ok Ss /\ Forall2 layer_system ms Ss /\
    Forall2 (fun m S => cd_getFemSystem ROps A sigma m = Ok S /\ (forall a, (a < sdim S)%nat -> sumn (sdim S) (value 0 (sA R S) a) = 0) /\ forall a, vget (sb R S) a = 0) ms Ss.
Proof.
  intros ms pss F. induction F as [|m ps ms pss H F IH]; intros U; [exists []; repeat split; constructor|]. inversion U as [|? ? Um Us]; subst.
  destruct (cd_energy m ps sigma H Um) as [S [E [VS [L [DT [_ [RS B]]]]]]]. destruct (IH Us) as [Ss [E2 [F2 F3]]]. cbn [map_res]. rewrite E. cbn [bind]. rewrite E2. cbn [bind].
  exists (S :: Ss). split; auto. split; constructor; auto; [split; auto|]. split; auto. split; auto. rewrite L. exact RS.
Qed.
Lemma total_sum : forall l, total l = list_sum l.
Proof.
  intros l. unfold total. assert (G : forall l a, fold_left Nat.add l a = (a + list_sum l)%nat).
  { induction l0 as [|x l0 IH]; intros a; cbn [fold_left]; [cbn; lia|]. rewrite IH. unfold list_sum. cbn [fold_right]. lia. }
  rewrite G. lia.
Qed.
Lemma sizes_eq : forall (ms : list (mesh ROps A)) (Ss : list rsys), Forall2 layer_system ms Ss -> map (fun S => length (sb R S)) Ss = map (fun m => length (m_points m)) ms.
Proof. intros ms Ss F. induction F as [|m S ms Ss [_ [_ L]] F IH]; cbn [map]; auto. rewrite IH. f_equal. exact L. Qed.
Lemma map_res_det : forall X Y (f : X -> res Y) l ys ys', map_res f l = Ok ys -> map_res f l = Ok ys' -> ys = ys'.
Proof. intros. congruence. Qed.
Definition conns (es : list (nat * nat * R)) (M : coo R) : res (coo R) := forM_list es (fun e => conn (fst (fst e)) (snd (fst e)) (snd e)) M.
Lemma empty_valid : forall n, is_u32 n -> valid_system (mkSys R (coo_new R n) (repeat 0 n)).
Proof.
  intros n U. split; [split; [constructor|intros k v []]|]. cbn [sA sb cm coo_new]. rewrite repeat_length. auto.
Qed.
Lemma merged : forall ms pss, ready_layers ms pss -> exists Ss S0, map_res (cd_getFemSystem ROps A sigma) ms = Ok Ss /\
  Forall2 layer_system ms Ss /\
  Forall2 (fun m S => cd_getFemSystem ROps A sigma m = Ok S /\ (forall a, (a < sdim S)%nat -> sumn (sdim S) (value 0 (sA R S) a) = 0) /\ forall a, vget (sb R S) a = 0) ms Ss /\
  valid_system S0 /\ sdim S0 = nodes ms /\ all_diag_touched (sA R S0) /\
  (forall u v, (u < nodes ms)%nat -> (v < nodes ms)%nat -> value 0 (sA R S0) u v = blocks Ss u v) /\ (forall u, vget (sb R S0) u = loads Ss u) /\
  forall links es, wired ms links es -> ml_system ROps A sigma finite_R ms links = (A' <- conns (combine es (map k_R links)) (sA R S0) ;; Ok (mkSys R A' (sb R S0))).
Proof.
  intros ms pss [F [Us Un]]. destruct (systems_ok ms pss F Us) as [Ss [E [FS FP]]].
  assert (Sz : map (fun S => length (sb R S)) Ss = map (fun m => length (m_points m)) ms) by (apply sizes_eq; auto).
  assert (Tot : total (map (fun S => length (sb R S)) Ss) = nodes ms) by (rewrite Sz, total_sum; reflexivity).
  destruct (merge_layers_ok ms Ss FS 0 (mkSys R (coo_new R (nodes ms)) (repeat 0 (nodes ms))) (empty_valid _ Un)) as [S0 [E0 [W0 [L0 [V0 [B0 T0]]]]]].
  - unfold sdim. cbn [sb]. rewrite repeat_length. reflexivity.
  - intros a b Ha Hb _. reflexivity.
  - intros u _. cbn [sb]. unfold vget. destruct (lt_dec u (nodes ms)); [rewrite nth_repeat; reflexivity|rewrite nth_overflow; auto; rewrite repeat_length; lia].
  - intros u Hu. lia.
  - unfold sdim at 2 in L0. cbn [sb] in L0. rewrite repeat_length in L0.
    exists Ss, S0. split; auto. split; auto. split; auto. split; auto. split; auto. split.
    { intros u Hu. apply T0. destruct W0 as [_ [C _]]. pose proof (eq_trans C L0) as C2. change (T ROps) with R in C2. rewrite C2 in Hu. unfold sdim. cbn [sb]. rewrite repeat_length. lia. }
    split; [intros u v Hu Hv; rewrite V0; [rewrite !Nat.sub_0_r; reflexivity| |]; unfold sdim; cbn [sb]; rewrite repeat_length; auto|].
    split; [intros u; rewrite B0; rewrite Nat.sub_0_r; reflexivity|].
    intros links es [WJ WR]. unfold ml_system. change (T ROps) with R. rewrite E. cbn [bind].
    assert (KL : forall links es, Forall2 (fun k e => joins ms k (fst e) (snd e)) links es -> exists ks, map_res (link_nodes ROps A finite_R ms) links = Ok ks /\
      forall M, forM_list ks (connect ROps (offsets (map (fun S => length (sb R S)) Ss))) M = conns (combine es (map k_R links)) M).
    { clear - Un Sz. intros links es WJ. induction WJ as [|k [u v] links es [J1 J2] WJ [ks [E IH]]]; [exists []; split; reflexivity|]. cbn [map_res].
      destruct J1 as [m1 [i1 [N1 [C1 Eu]]]]. destruct J2 as [m2 [i2 [N2 [C2 Ev]]]]. cbn [fst snd] in *.
      assert (NE : forall pts p i, closest pts p i -> pts <> []) by (intros pts p i [H _] ->; cbn in H; lia).
      unfold link_nodes at 1. rewrite (get_nth_error _ _ _ _ N1), (get_nth_error _ _ _ _ N2). cbn [bind].
      destruct (closest_norm A m1 (k_p1 k) (NE _ _ _ C1)) as [j1 [-> D1]]. destruct (closest_norm A m2 (k_p2 k) (NE _ _ _ C2)) as [j2 [-> D2]]. cbn [bind].
      rewrite (closest_unique _ _ _ _ D1 C1), (closest_unique _ _ _ _ D2 C2). rewrite E. cbn [bind]. eexists. split; [reflexivity|].
      intros M. cbn [forM_list map combine]. unfold conns. cbn [forM_list fst snd]. fold (conns (combine es (map k_R links))).
      pose proof (before_lt A ms _ _ _ N1 (closest_lt _ _ _ C1)) as B1. pose proof (before_lt A ms _ _ _ N2 (closest_lt _ _ _ C2)) as B2.
      rewrite (connect_conn _ _ _ _ _ _ (before ms (k_layer1 k)) (before ms (k_layer2 k))).
      - subst u v. rewrite (Nat.add_comm i1), (Nat.add_comm i2). destruct (conn _ _ _ M) as [M1|s|s|s]; cbn [bind]; auto.
      - rewrite Sz. apply offsets_nth. eapply nth_error_lt; eauto.
      - rewrite Sz. apply offsets_nth. eapply nth_error_lt; eauto.
      - eapply is_u32_lt; [|exact Un]. lia.
      - eapply is_u32_lt; [|exact Un]. lia. }
    destruct (KL links es WJ) as [ks [EK IH]]. change (T ROps) with R in EK. rewrite EK. cbn [bind]. rewrite Tot. rewrite u32_id by auto. cbn [zero ROps].
    rewrite E0. cbn [bind]. rewrite IH. reflexivity.
Qed.
End Layers.
