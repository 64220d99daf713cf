(** The weighting matrix, vanishing fields and the integral over the shell. *)
From Coq Require Import String.
From Coq Require Import List Arith ZArith NArith Bool Lia Permutation.
From Coq Require Import Reals Lra.
From Verif Require Import Base SumR AlgebraModel AlgebraSpec SolversModel SolversSpec GeometryModel GeometrySpec DrawingModel DrawingSpec MeshModel MeshSpec ForceModel ForceSpec.
From Verif Require Import Geometry_proofs Fem_proofs MeshGeo_proofs Integral_proofs Coo_proofs Csr_proofs Algebra_bridge Edges_proofs Hold_proofs.
Import ListNotations.

Tactic Notation "ib" hyp(H) ident(x) ident(E) := match type of H with bind ?e _ = Ok _ => destruct e as [x| | |] eqn:E; cbn [bind] in H; try discriminate end.

(** ** loops that end with a value *)
Lemma list_ok_inv : forall X S (f : X -> S -> res S) (I : S -> Prop) l s s', forM_list l f s = Ok s' -> I s ->
  (forall x s s', In x l -> f x s = Ok s' -> I s -> I s') -> I s'.
Proof.
  induction l as [|x l IH]; intros s s' H H0 H1; cbn in H; [injection H as <-; auto|]. ib H s1 E. eapply IH; eauto.
  - eapply H1; eauto. left; auto.
  - intros; eapply H1; eauto. right; auto.
Qed.
Lemma from_ok_inv : forall S (f : nat -> S -> res S) (I : nat -> S -> Prop) k a s s', forM_from k a f s = Ok s' -> I a s ->
  (forall j s s', a <= j < a + k -> f j s = Ok s' -> I j s -> I (Datatypes.S j) s') -> I (a + k) s'.
Proof.
  induction k as [|k IH]; intros a s s' H H0 H1; cbn in H; [injection H as <-; rewrite Nat.add_0_r; auto|]. ib H s1 E.
  replace (a + Datatypes.S k) with (Datatypes.S a + k) by lia. eapply IH; eauto.
  - eapply H1; eauto; lia.
  - intros j t t' Hj. apply H1; lia.
Qed.
Lemma up_ok_inv : forall S (f : nat -> S -> res S) (I : nat -> S -> Prop) k s s', forM_up k f s = Ok s' -> I 0 s ->
  (forall j s s', j < k -> f j s = Ok s' -> I j s -> I (Datatypes.S j) s') -> I k s'.
Proof. intros S f I k s s' H H0 H1. apply (from_ok_inv S f I k 0 s s'); auto. intros; eapply H1; eauto; lia. Qed.
Lemma up_ok_body : forall S (f : nat -> S -> res S) k s s' i, forM_up k f s = Ok s' -> i < k -> exists t t', f i t = Ok t'.
Proof.
  intros S f k s s' i H Hi. assert (G : forall k a s s', forM_from k a f s = Ok s' -> a <= i < a + k -> exists t t', f i t = Ok t').
  { clear. induction k as [|k IH]; intros a s s' H Hi; [lia|]. cbn in H. ib H s1 E. destruct (Nat.eq_dec i a) as [->|N]; eauto. apply (IH _ _ _ H). lia. }
  apply (G k 0 s s'); auto. lia.
Qed.

(** ** which triangles a vertex sees *)
Lemma ids_sound : forall l all k tb tb', (forall i, i < length l -> nth i l (0, 0, 0) = nth (k + i) all (0, 0, 0)) -> k + length l <= length all -> ids_loop l k tb = Ok tb' ->
  (forall v id, In id (nth v tb []) -> id < length all /\ In v (corners (nth id all (0, 0, 0)))) ->
  forall v id, In id (nth v tb' []) -> id < length all /\ In v (corners (nth id all (0, 0, 0))).
Proof.
  induction l as [|t l IH]; intros all k tb tb' HA L H I0; cbn in H; [injection H as <-; auto|]. ib H tb1 E. cbn [length] in L.
  apply (IH all (S k) tb1 tb'); auto; [intros i Hi; specialize (HA (S i)); cbn [nth length] in HA; rewrite HA by lia; f_equal; lia|lia|].
  assert (Et : t = nth k all (0, 0, 0)) by (specialize (HA 0); cbn in HA; rewrite Nat.add_0_r in HA; apply HA; lia).
  apply (list_ok_inv _ _ (fun v tb => push 18 tb v k) (fun tb => forall v id, In id (nth v tb []) -> id < length all /\ In v (corners (nth id all (0, 0, 0)))) (corners t) tb tb1 E); auto.
  intros v s s' Iv P I1 w id Iw. unfold push in P. ib P r Er. destruct (Nat.leb_spec 18 (length r)) as [Q18|Q18]; [discriminate P|].
  unfold set in P. destruct (Nat.ltb_spec v (length s)); [|discriminate]. injection P as <-.
  rewrite nth_upd in Iw by auto. destruct (Nat.eqb_spec w v) as [->|]; auto.
  apply in_app_or in Iw. destruct Iw as [Iw|[<-|[]]].
  - apply I1. apply get_ok in Er. rewrite (nth_error_nth _ _ _ Er). auto.
  - rewrite <- Et. split; [lia|auto].
Qed.

Local Open Scope R_scope.
Section Matrix.
Variable A : Type.
Variable m : mesh ROps A.
Variable B : list pt.
Variable a : assets ROps.
Variable K : pt -> pt -> pt -> pt -> res (R * R).
Notation n := (length (m_points m)).
Hypothesis U : is_u32 n.

Definition mat (M : coo R) : Prop := valid_coo M /\ cm M = n.
Lemma entry_frame : forall (M M' : coo R) i v f, (i < n)%nat -> (v < n)%nat -> (if Nat.leb i v then coo_modify 0 M i v f else Ok M) = Ok M' -> mat M ->
  mat M' /\ (forall x, (x < n)%nat -> x <> i -> value 0 M' x x = value 0 M x x) /\ ((forall x, f x = x) -> value 0 M' i i = value 0 M i i).
Proof using U.
  intros M M' i v f Hi Hv E [[ND KK] C]. destruct (Nat.leb_spec i v) as [L|L]; [|injection E as <-; repeat split; auto].
  destruct (coo_modify_spec 0 M i v f) as [[L' _]|[_ [M1 [E1 [Hm [F [O [ND1 I]]]]]]]]; [lia|]. rewrite E in E1. injection E1 as <-.
  split; [split; [split; auto|congruence]|].
  - intros k w Iw. assert (Ik : In k (map fst (elems M'))) by (apply (in_map fst _ (k, w)); auto). apply I in Ik. destruct Ik as [->|Ik].
    + exists i, v. repeat split; auto. rewrite Hm, C. auto.
    + apply in_map_iff in Ik. destruct Ik as [[k' w'] [Q Ik]]. cbn in Q. subst. rewrite Hm. eapply KK; eauto.
  - assert (Ui : is_u32 i) by (eapply is_u32_le; [|exact U]; lia). assert (Uv : is_u32 v) by (eapply is_u32_le; [|exact U]; lia). split.
    + intros x Lx Nx. unfold value. rewrite !Nat.min_id, !Nat.max_id. rewrite O; auto. intros Q.
      apply key_inj in Q; auto; try (eapply is_u32_le; [|exact U]; lia). lia.
    + intros Id. unfold value. rewrite !Nat.min_id, !Nat.max_id. destruct (N.eq_dec (key i i) (key i v)) as [Q|Q].
      * rewrite Q, F, Id. auto.
      * rewrite O; auto.
Qed.
Lemma elem_frame : forall i id (M M' : coo R), shell_elem ROps A K m B a i id M = Ok M' -> mat M ->
  mat M' /\ (forall x, (x < n)%nat -> x <> i -> value 0 M' x x = value 0 M x x) /\
  (forall Bi, nth_error B id = Some Bi -> (forall p1 p2 p3, K Bi p1 p2 p3 = Ok (0, 0)) -> value 0 M' i i = value 0 M i i).
Proof using U.
  intros i id M M' H HM. unfold shell_elem in H. ib H t Et. ib H Bi EB. ib H oc Eo. destruct oc as [v2' v3']. ib H d Ed.
  destruct (if ltb ROps d (zero ROps) then (v3', v2') else (v2', v3')) as [v2 v3]. ib H D ED. ib H p1 E1. ib H p2 E2. ib H p3 E3.
  ib H b1 Eb1. ib H b2 Eb2. ib H b3 Eb3. ib H c1 Ec1. ib H c2 Ec2. ib H c3 Ec3. ib H KK EK. destruct KK as [K1 K2]. ib H err Ee. ib H root Er. ib H w Ew.
  apply get_ok in E1, E2, E3, EB.
  assert (Hi : (i < n)%nat) by (apply nth_error_Some; rewrite E1; discriminate). assert (H2 : (v2 < n)%nat) by (apply nth_error_Some; rewrite E2; discriminate). assert (H3 : (v3 < n)%nat) by (apply nth_error_Some; rewrite E3; discriminate).
  ib H M1 EM1. ib H M2 EM2. change (T ROps) with R in *. change (zero ROps) with 0 in *.
  destruct (entry_frame _ _ _ _ _ Hi Hi EM1 HM) as [G1 [G2 G3]]. destruct (entry_frame _ _ _ _ _ Hi H2 EM2 G1) as [G4 [G5 G6]]. destruct (entry_frame _ _ _ _ _ Hi H3 H G4) as [G7 [G8 G9]].
  split; auto. split.
  - intros x Lx Nx. rewrite G8, G5, G2 by auto. auto.
  - intros Bi' EB' KZ. rewrite EB in EB'. injection EB' as <-. rewrite KZ in EK. injection EK as <- <-.
    rewrite G9, G6, G3; auto; intros x; cbn; change (T ROps) with R; ring.
Qed.
Definition silent (id : nat) : Prop := exists Bi, nth_error B id = Some Bi /\ forall p1 p2 p3, K Bi p1 p2 p3 = Ok (0, 0).
Lemma matrix_frame : forall M i, (i < n)%nat -> shell_matrix ROps A K m B a = Ok M -> mat M /\ ((forall id, In id (nth i (as_ids a) []) -> silent id) -> value 0 M i i = 0).
Proof using U.
  intros M i Hi H. unfold shell_matrix in H.
  assert (G : mat M /\ ((forall id, In id (nth i (as_ids a) []) -> silent id) -> value 0 M i i = 0)); [|exact G].
  apply (up_ok_inv _ (shell_vertex ROps A K m B a) (fun _ M => mat M /\ ((forall id, In id (nth i (as_ids a) []) -> silent id) -> value 0 M i i = 0)) n _ _ H).
  - split; [split; [split; [constructor|intros ? ? []]|reflexivity]|]. intros _. reflexivity.
  - intros j s s' Hj E [I1 I2]. unfold shell_vertex in E. ib E ids Ei.
    assert (Q : mat s' /\ ((forall id, In id (nth i (as_ids a) []) -> silent id) -> value 0 s' i i = value 0 s i i)).
    { apply (list_ok_inv _ _ (shell_elem ROps A K m B a j) (fun X => mat X /\ ((forall id, In id (nth i (as_ids a) []) -> silent id) -> value 0 X i i = value 0 s i i)) ids s s' E); auto.
      intros id X X' Iid EX [J1 J2]. destruct (elem_frame j id X X' EX J1) as [F1 [F2 F3]]. split; auto. intros Sl. rewrite <- (J2 Sl).
      destruct (Nat.eq_dec i j) as [->|N]; [|apply F2; auto]. apply get_ok in Ei. rewrite (nth_error_nth _ _ _ Ei) in Sl. destruct (Sl id Iid) as [Bi [Q1 Q2]]. apply (F3 Bi); auto. }
    destruct Q as [Q1 Q2]. split; auto. intros Sl. rewrite Q2; auto.
Qed.
Lemma matrix_frame0 : forall M, shell_matrix ROps A K m B a = Ok M -> mat M.
Proof using U.
  intros M H. destruct (Nat.eq_dec n 0) as [En|En].
  - unfold shell_matrix in H. rewrite En in H. cbn in H. injection H as <-. split; [split; [constructor|intros ? ? []]|cbn; rewrite En; auto].
  - apply (matrix_frame M 0) in H; [apply H|lia].
Qed.
End Matrix.

(** ** the diagonal of the compressed matrix *)
Lemma fill_diag : forall n i es (s s' : fill R), is_u32 n -> (i < n)%nat -> length (f_diag s) = n -> Forall (in_key n) es -> NoDup (map fst es) -> forM_list es fill_step s = Ok s' ->
  vget (f_diag s') i = match find_key es (key i i) with Some v => v | None => vget (f_diag s) i end.
Proof.
  intros n i es s s' U Hi. revert s. induction es as [|[k v] es IH]; intros s L K ND H.
  - cbn in H. injection H as <-. auto.
  - cbn [forM_list] in H. ib H s1 E. destruct (Forall_inv K) as [x [y [Hxy Ek]]]. pose proof (Forall_inv_tail K) as K'. cbn [fst] in Ek. cbn [map fst] in ND. apply NoDup_cons_iff in ND; destruct ND as [NI ND']. subst k.
    assert (Ux : is_u32 x) by (eapply is_u32_le; [|exact U]; lia). assert (Uy : is_u32 y) by (eapply is_u32_le; [|exact U]; lia). assert (Ui : is_u32 i) by (eapply is_u32_le; [|exact U]; lia).
    unfold fill_step in E. cbn [fst snd] in E. rewrite krow_key, kcol_key in E by auto. cbn [find_key]. destruct (Nat.eqb_spec x y) as [->|N].
    + ib E d Ed. injection E as <-. unfold set in Ed. destruct (Nat.ltb_spec y (length (f_diag s))); [|discriminate]. injection Ed as <-.
      rewrite (fun L => IH _ L K' ND' H) by (cbn [f_diag]; rewrite upd_length; exact L). cbn [f_diag]. unfold vget. rewrite nth_upd by auto.
      destruct (N.eqb_spec (key y y) (key i i)) as [Q|Q].
      * apply key_inj in Q; auto. destruct Q as [-> _]. rewrite Nat.eqb_refl. apply find_key_none in NI. rewrite NI. auto.
      * destruct (Nat.eqb_spec i y) as [->|]; [congruence|]. auto.
    + ib E ci E1. ib E va E2. ib E old E3. ib E rp E4. injection E as <-. rewrite (fun L => IH _ L K' ND' H) by exact L. cbn [f_diag].
      destruct (N.eqb_spec (key x y) (key i i)) as [Q|Q]; auto. apply key_inj in Q; auto. lia.
Qed.
Lemma build_diag : forall n (l : list (N * R)) C i, is_u32 n -> (i < n)%nat -> Forall (in_key n) l -> NoDup (map fst l) -> csr_build 0 (mkCoo l n) = Ok C ->
  m C = n /\ vget (diag C) i = match find_key l (key i i) with Some v => v | None => 0 end.
Proof.
  intros n l C i U Hi K ND H. unfold csr_build in H. cbn [elems cm] in H. ib H s E. ib H rp E2. injection H as <-. cbn [m diag]. split; auto.
  pose proof (sort_keys_perm l) as P. assert (K2 : Forall (in_key n) (sort_keys l)) by (rewrite Forall_forall in *; intros z Iz; apply K; eapply Permutation_in; eauto).
  assert (ND2 : NoDup (map fst (sort_keys l))) by (eapply Permutation_NoDup; [apply Permutation_map, Permutation_sym; eauto|auto]).
  rewrite (fill_diag n i _ _ _ U Hi) with (3 := ND2) (4 := E); auto; [|cbn [f_diag]; apply repeat_length].
  rewrite (find_key_perm _ _ _ P ND2). cbn [f_diag]. rewrite vget_repeat. auto.
Qed.
Lemma ssor_diag : forall C r cv w z i, (i < m C)%nat -> ssor ROps C r cv w = Ok z -> vget (diag C) i <> 0.
Proof.
  intros C r cv w z i Hi H. unfold ssor in H. ib H r1 E1. ib H r2 E2. destruct (up_ok_body _ _ _ _ _ i E2 Hi) as [t [t' E]]. cbn beta in E.
  ib E d Ed. ib E x Ex. ib E q Eq. apply get_ok in Ed. unfold vget. rewrite (nth_error_nth _ _ _ Ed). intros ->.
  cbn [div ROps] in Eq. destruct (Rdivr_zero x) as [s Z]. rewrite Z in Eq. discriminate.
Qed.
Lemma pcg_diag : forall C b x w e k z i, (i < m C)%nat -> ssor_pcg ROps C b x w e k = Ok z -> vget (diag C) i <> 0.
Proof. intros C b x w e k z i Hi H. unfold ssor_pcg in H. ib H r E1. ib H z' E2. eapply ssor_diag; eauto. Qed.

Section Vanish.
Variable A : Type.
Variable m : mesh ROps A.
Variable B : list pt.
Variable a : assets ROps.
Variable shuffle : list (N * R) -> list (N * R).
Hypothesis SH : forall l, Permutation (shuffle l) l.
Notation n := (length (m_points m)).
Hypothesis U : is_u32 n.
Hypothesis LF : length (as_flags a) = n.

Lemma weights_vanish : forall K i, (i < n)%nat -> held (as_flags a) i = false -> (forall id, In id (nth i (as_ids a) []) -> silent B K id) ->
  forall g, weights ROps A shuffle K m B a <> Ok g.
Proof using SH U LF.
  intros K i Hi Hh Sl g H. unfold weights in H. ib H M EM. destruct (matrix_frame A m B a K U M i Hi EM) as [[W C] Z]. specialize (Z Sl).
  destruct (ready_keys M W (shuffle (elems M)) (SH _)) as [KK ND]. rewrite C in KK.
  destruct (hold_loop_eq n (as_flags a) U LF _ (repeat 0 n) KK (repeat_length _ _)) as [b [Eb [Lb _]]].
  change (repeat (zero ROps) n) with (repeat 0 n) in H. rewrite Eb in H. cbn [bind] in H. ib H C0 EC. ib H om Eo. ib H tl El. ib H gg Eg. destruct gg as [g0 st]. change (T ROps) with R in EC. change (zero ROps) with 0 in EC. rewrite C in EC.
  assert (Ek : map fst (map (hv (as_flags a)) (shuffle (elems M))) = map fst (shuffle (elems M))) by (rewrite map_map; apply map_ext; intros [? ?]; auto).
  assert (KK2 : Forall (in_key n) (map (hv (as_flags a)) (shuffle (elems M)))).
  { rewrite Forall_forall in *. intros z Iz. apply in_map_iff in Iz. destruct Iz as [z' [<- Iz]]. destruct (KK z' Iz) as [x [y [Q1 Q2]]]. exists x, y. auto. }
  destruct (build_diag n _ C0 i U Hi KK2) with (2 := EC) as [Mc Dc]; [rewrite Ek; auto|].
  apply (pcg_diag C0 _ _ _ _ _ _ i) in Eg; [|change (T ROps) with R; rewrite Mc; auto]. apply Eg. change (T ROps) with R. rewrite Dc. rewrite find_hv.
  rewrite <- (find_key_perm (elems M)); [|apply Permutation_sym, SH|apply W].
  rewrite (value_lt M i i (le_n _)) in Z. change (T ROps) with R in *. destruct (find_key (elems M) (key i i)) as [v|]; auto. rewrite Z. unfold hv. cbn [fst snd].
  rewrite krow_key by (eapply is_u32_le; [|exact U]; lia). rewrite Hh. auto.
Qed.
End Vanish.
Lemma force_silent : forall p1 p2 p3, force_K ROps org p1 p2 p3 = Ok (0, 0).
Proof.
  intros. unfold force_K. cbn [div ROps one ofZ]. rewrite Rdivr_ok by lra. cbn [bind]. unfold normalize. rewrite norm_any. cbn [bind eqb ROps zero].
  match goal with |- context [Reqb ?a 0] => destruct (Reqb a 0) eqn:Q end; cbn [bind].
  - apply f_equal. f_equal; cbn; ring.
  - apply Reqb_false in Q. cbn [div ROps]. rewrite !Rdivr_ok by exact Q. cbn [bind]. apply f_equal. f_equal; cbn; ring.
Qed.
Lemma torque_silent : forall c p1 p2 p3, torque_K ROps c org p1 p2 p3 = Ok (0, 0).
Proof.
  intros. unfold torque_K. cbn [div ROps one ofZ]. rewrite Rdivr_ok by lra. cbn [bind]. unfold vdivs. cbn [div ROps ofZ]. rewrite !Rdivr_ok by lra. cbn [bind].
  apply f_equal. f_equal; cbn; ring.
Qed.
Lemma map_res_len : forall X Y (f : X -> res Y) l r, map_res f l = Ok r -> length r = length l.
Proof. induction l as [|x l IH]; intros r H; cbn in H; [injection H as <-; auto|]. ib H y E. ib H r' E'. injection H as <-. cbn. f_equal. auto. Qed.
(** what the tables hold *)
Lemma assets_tables : forall A pdef dm (m : mesh ROps A) B p a, get_assets ROps A pdef dm m B p = Ok a -> length (as_flags a) = length (m_points m) /\
  forall v id, In id (nth v (as_ids a) []) -> (id < length (m_tris m))%nat /\ In v (corners (nth id (m_tris m) (0, 0, 0)%nat)).
Proof.
  intros A pdef dm m B p a H. unfold get_assets in H. ib H r E. destruct r as [[g outer] holes]. ib H ids E1. ib H errs E2. ib H fl E3. injection H as <-. cbn [as_flags as_ids].
  split; [eapply map_res_len; eauto|]. intros v id I. unfold adj_ids in E1. apply (ids_sound (m_tris m) (m_tris m) 0 _ ids) with (3 := E1); auto.
  intros w k J. exfalso. clear - J. revert w J. induction (length (m_points m)); intros [|w] J; cbn in J; auto. eapply IHn; eauto.
Qed.
Lemma vanish_integrals : forall A mu0 shuffle (m : mesh ROps A) depth B c a i, (forall l, Permutation (shuffle l) l) -> is_u32 (length (m_points m)) -> length (as_flags a) = length (m_points m) ->
  (forall v id, In id (nth v (as_ids a) []) -> (id < length (m_tris m))%nat /\ In v (corners (nth id (m_tris m) (0, 0, 0)%nat))) ->
  (i < length (m_points m))%nat -> held (as_flags a) i = false -> length B = length (m_tris m) ->
  (forall id, (id < length (m_tris m))%nat -> In i (corners (nth id (m_tris m) (0, 0, 0)%nat)) -> field B id = org) ->
  (forall r, force_integral ROps A mu0 shuffle m depth B a <> Ok r) /\ (forall r, torque_integral ROps A mu0 shuffle m depth B a c <> Ok r).
Proof.
  intros A mu0 shuffle m depth B c a i SH U LF TI Hi Hh LB Z.
  assert (S0 : forall K, (forall p1 p2 p3, K org p1 p2 p3 = Ok (0, 0)) -> forall id, In id (nth i (as_ids a) []) -> silent B K id).
  { intros K HK id I. destruct (TI i id I) as [L C]. exists org. split; auto. rewrite <- (Z id L C). apply nth_error_nth'. rewrite LB. auto. }
  assert (F : forall r, force_integral ROps A mu0 shuffle m depth B a <> Ok r).
  { intros r H. unfold force_integral in H. ib H g E. eapply (weights_vanish A m B a shuffle SH U LF (force_K ROps) i); eauto. apply S0, force_silent. }
  assert (G : forall r, torque_integral ROps A mu0 shuffle m depth B a c <> Ok r).
  { intros r H. unfold torque_integral in H. ib H g E. eapply (weights_vanish A m B a shuffle SH U LF (torque_K ROps c) i); eauto. apply S0, torque_silent. }
  split; auto.
Qed.
Lemma vanish_all : forall A pdef dm mu0 shuffle (m : mesh ROps A) depth B p c a i, (forall l, Permutation (shuffle l) l) -> is_u32 (length (m_points m)) ->
  get_assets ROps A pdef dm m B p = Ok a -> (i < length (m_points m))%nat -> held (as_flags a) i = false -> length B = length (m_tris m) ->
  (forall id, (id < length (m_tris m))%nat -> In i (corners (nth id (m_tris m) (0, 0, 0)%nat)) -> field B id = org) ->
  ~ is_ok (computeForceIntegrals ROps A pdef dm mu0 shuffle m depth B p) /\ ~ is_ok (computeTorqueIntegral ROps A pdef dm mu0 shuffle m depth B p c) /\
  ~ is_ok (computeStressIntegral ROps A pdef dm mu0 shuffle m depth B p c).
Proof.
  intros A pdef dm mu0 shuffle m depth B p c a i SH U EA Hi Hh LB Z. destruct (assets_tables A pdef dm m B p a EA) as [LF TI].
  destruct (vanish_integrals A mu0 shuffle m depth B c a i SH U LF TI Hi Hh LB Z) as [F G].
  split; [|split]; intros [r H].
  - unfold computeForceIntegrals in H. rewrite EA in H. cbn [bind] in H. eapply F; eauto.
  - unfold computeTorqueIntegral in H. rewrite EA in H. cbn [bind] in H. eapply G; eauto.
  - unfold computeStressIntegral in H. rewrite EA in H. cbn [bind] in H. ib H f E. eapply F; eauto.
Qed.

(** ** a uniform field *)
Lemma in_shell_eq : forall fl t, Forall (fun v => (v < length fl)%nat) (corners t) -> in_shell fl t = Ok (forallb (shell_node fl) (corners t)).
Proof.
  intros fl t H. unfold in_shell. assert (G : forall l b, Forall (fun v => (v < length fl)%nat) l ->
    forM_list l (fun v (ok : bool) => if ok then f <- get fl v ;; Ok (negb (f_inside f || negb (f_outer f) || f_hole f)) else Ok false) b = Ok (b && forallb (shell_node fl) l)).
  { induction l as [|v l IH]; intros b Hl; cbn [forM_list forallb]; [rewrite andb_true_r; auto|]. inversion Hl; subst. destruct b; cbn [bind].
    - rewrite (get_lt _ fl v (false, false, true, false)) by auto. cbn [bind]. rewrite IH by auto. change (nth v fl (false, false, true, false)) with (flag_at fl v).
      unfold shell_node at 2. cbn [andb]. f_equal. f_equal. destruct (f_inside (flag_at fl v)), (f_outer (flag_at fl v)), (f_hole (flag_at fl v)); auto.
    - rewrite IH by auto. auto. }
  rewrite G; auto.
Qed.
Lemma grad_green : forall A (m : mesh ROps A) (x : nat -> R) t g, gradient_of m x t g -> tri_turn m t <> 0 ->
  Rabs (tri_turn m t) / 2 * px g = suml (ccw_sides m t) (fun e => (x (fst e) + x (snd e)) / 2 * (py (pos m (snd e)) - py (pos m (fst e)))) /\
  Rabs (tri_turn m t) / 2 * py g = suml (ccw_sides m t) (fun e => (x (fst e) + x (snd e)) / 2 * (px (pos m (fst e)) - px (pos m (snd e)))).
Proof.
  intros A m x t g [G1 G2] _.
  assert (X : forall h, suml (ccw_sides m t) h = if Rlt_dec (tri_turn m t) 0 then h (t1 t, t0 t) + (h (t2 t, t1 t) + (h (t0 t, t2 t) + 0)) else h (t0 t, t1 t) + (h (t1 t, t2 t) + (h (t2 t, t0 t) + 0))).
  { intros h. unfold ccw_sides. destruct (Rlt_dec _ _); unfold suml; reflexivity. }
  rewrite !X. assert (E1 : x (t1 t) = x (t0 t) + (px g * (px (pos m (t1 t)) - px (pos m (t0 t))) + py g * (py (pos m (t1 t)) - py (pos m (t0 t))))) by lra.
  assert (E2 : x (t2 t) = x (t0 t) + (px g * (px (pos m (t2 t)) - px (pos m (t0 t))) + py g * (py (pos m (t2 t)) - py (pos m (t0 t))))) by lra.
  destruct (Rlt_dec (tri_turn m t) 0) as [Q|Q]; [rewrite Rabs_left by lra|rewrite Rabs_right by lra]; unfold tri_turn, turn; cbn [fst snd]; rewrite E1, E2; split; field.
Qed.
Section Uniform.
Variable A : Type.
Variable m : mesh ROps A.
Variable fl : list flags.
Variable x : nat -> R.
Hypothesis NF : no_fold m (shell m fl).
Hypothesis RM : forall u v, rim m (shell m fl) u v -> x u = x v.
Lemma green_zero : forall q : nat -> R, suml (shell m fl) (fun t => suml (ccw_sides m t) (fun e => (x (fst e) + x (snd e)) / 2 * (q (snd e) - q (fst e)))) = 0.
Proof using NF RM.
  intros q. set (h := fun u v => (x u + x v) / 2 * (q v - q u) - (x v * q v - x u * q u)).
  assert (Z : suml (concat (map (ccw_sides m) (shell m fl))) (fun e => h (fst e) (snd e)) = 0).
  { apply swap_sum; auto.
    - intros u v. unfold h. field.
    - intros u v I J. unfold h. rewrite (RM u v) by (split; auto). field. }
  rewrite suml_concat in Z. rewrite <- Z. apply suml_ext. intros t _. unfold ccw_sides. destruct (Rlt_dec _ _); unfold suml; cbn; unfold h; ring.
Qed.
Hypothesis LF : length fl = length (m_points m).
Hypothesis HT : Forall (tri_in (length (m_points m))) (m_tris m).
Variable Bc : pt.
Lemma loop_sum : forall l gs B (f0 : pt), incl l (m_tris m) -> Forall (fun t => tri_turn m t <> 0) l -> Forall2 (gradient_of m x) l gs -> length B = length l -> Forall (eq Bc) B ->
  exists F, force_loop ROps A m fl gs B l f0 = Ok F /\ exists Gx Gy,
    Gx = suml (filter (fun t => forallb (shell_node fl) (corners t)) l) (fun t => suml (ccw_sides m t) (fun e => (x (fst e) + x (snd e)) / 2 * (py (pos m (snd e)) - py (pos m (fst e))))) /\
    Gy = suml (filter (fun t => forallb (shell_node fl) (corners t)) l) (fun t => suml (ccw_sides m t) (fun e => (x (fst e) + x (snd e)) / 2 * (px (pos m (fst e)) - px (pos m (snd e))))) /\
    px F = px f0 + (Gx / 2 * norm2 Bc - px Bc * (Gx * px Bc + Gy * py Bc)) /\ py F = py f0 + (Gy / 2 * norm2 Bc - py Bc * (Gx * px Bc + Gy * py Bc)).
Proof using LF HT.
  clear NF RM. induction l as [|t l IH]; intros gs B f0 I HP HG LB HB; inversion HG; subst; destruct B as [|b B]; try discriminate.
  - exists f0. split; auto. exists 0, 0. split; [reflexivity|split; [reflexivity|split; field]].
  - inversion HB as [|? ? Eb HB']. subst b. inversion HP as [|? ? Ht HP']; subst. cbn [force_loop]. assert (It : In t (m_tris m)) by (apply I; left; auto).
    rewrite Forall_forall in HT. pose proof (HT t It) as Ti. rewrite in_shell_eq by (destruct Ti as [T1 [T2 T3]]; rewrite LF; unfold corners; repeat constructor; auto). cbn [bind].
    cbn [length] in LB. injection LB as LB. rewrite <- Forall_forall in HT. assert (I' : incl l (m_tris m)) by (intros z Hz; apply I; right; auto). cbn [filter].
    destruct (forallb (shell_node fl) (corners t)).
    + rewrite tri_points_ok by auto. cbn [bind]. rewrite area_R. cbn [bind]. change (turn (pos m (t0 t)) (pos m (t1 t)) (pos m (t2 t))) with (tri_turn m t). cbn [div ROps one ofZ]. rewrite Rdivr_ok by lra. cbn [bind].
      match goal with |- context [force_loop _ _ _ _ _ _ _ ?f] => set (f1 := f) end. destruct (IH _ B f1 I' HP' H3 LB HB') as [F [EF [Gx [Gy [E1 [E2 [E3 E4]]]]]]].
      exists F. split; auto. destruct (grad_green A m x t y H1 Ht) as [Q1 Q2]. set (ar := Rabs (tri_turn m t) / 2) in *.
      exists (ar * px y + Gx), (ar * py y + Gy). split; [|split; [|split]].
      * rewrite Q1, E1. reflexivity.
      * rewrite Q2, E2. reflexivity.
      * rewrite E3. assert (Ef : px f1 = px f0 + (px y * (1 / 2) * norm2 Bc - px Bc * (px y * px Bc + py y * py Bc)) * ar) by reflexivity. rewrite Ef. field.
      * rewrite E4. assert (Ef : py f1 = py f0 + (py y * (1 / 2) * norm2 Bc - py Bc * (px y * px Bc + py y * py Bc)) * ar) by reflexivity. rewrite Ef. field.
    + apply (IH _ B f0); auto.
Qed.
End Uniform.
Lemma uniform_loop : forall A (m : mesh ROps A) fl (g : list R) (Bc : pt), Forall (tri_in (length (m_points m))) (m_tris m) -> proper m -> length fl = length (m_points m) ->
  length g = length (m_points m) -> no_fold m (shell m fl) -> (forall u v, rim m (shell m fl) u v -> vget g u = vget g v) ->
  exists gs, computeGrad ROps A m g = Ok gs /\ force_loop ROps A m fl gs (repeat Bc (length (m_tris m))) (m_tris m) (vzero ROps) = Ok org.
Proof.
  intros A m fl g Bc HT HP LF Lg NF RM. destruct (computeGrad_ok m g HT HP Lg) as [gs [EG HG]]. exists gs. split; auto.
  set (B := repeat Bc (length (m_tris m))). assert (LB : length B = length (m_tris m)) by apply repeat_length.
  assert (HB : Forall (eq Bc) B). { apply Forall_forall. intros z Iz. apply repeat_spec in Iz. auto. }
  destruct (loop_sum A m fl (vget g) LF HT Bc (m_tris m) gs B (vzero ROps) (incl_refl _) HP HG LB HB) as [F [EF [Gx [Gy [E1 [E2 [E3 E4]]]]]]].
  rewrite EF. apply f_equal.
  pose proof (green_zero A m fl (vget g) NF RM (fun v => py (pos m v))) as Z1. fold (shell m fl) in E1, E2. rewrite Z1 in E1.
  pose proof (green_zero A m fl (vget g) NF RM (fun v => - px (pos m v))) as Z2.
  rewrite (suml_ext _ (shell m fl) _ (fun t => suml (ccw_sides m t) (fun e => (vget g (fst e) + vget g (snd e)) / 2 * (- px (pos m (snd e)) - - px (pos m (fst e)))))) in E2.
  - rewrite Z2 in E2. subst Gx Gy. apply pt_ext; [rewrite E3|rewrite E4]; change (px (vzero ROps)) with 0; change (py (vzero ROps)) with 0; unfold org; rewrite ?px_P, ?py_P; field.
  - intros t _. apply suml_ext. intros e _. ring.
Qed.
(** ** the order of the elimination, up to the weights *)
Lemma weights_same : forall A (m : mesh ROps A) B a K sh1 sh2 M, (forall l, Permutation (sh1 l) l) -> (forall l, Permutation (sh2 l) l) ->
  is_u32 (length (m_points m)) -> length (as_flags a) = length (m_points m) -> shell_matrix ROps A K m B a = Ok M -> all_diag_touched M ->
  (forall c r, (c < r < length (m_points m))%nat -> one_node (as_flags a) c = true -> held (as_flags a) r = true -> value 0 M c r = 0) ->
  weights ROps A sh1 K m B a = weights ROps A sh2 K m B a.
Proof.
  intros A m B a K sh1 sh2 M S1 S2 U LF EM DT H. destruct (matrix_frame0 A m B a K U M EM) as [W C].
  assert (RD : hold_ready M (as_flags a)) by (split; [auto|split; [rewrite C; auto|split; [auto|rewrite C; auto]]]).
  destruct (run_any M _ RD (sh1 (elems M)) (S1 _)) as [A1 [b1 [E1 _]]]. destruct (run_any M _ RD (sh2 (elems M)) (S2 _)) as [A2 [b2 [E2 _]]].
  rewrite <- C in H. destruct (same_input M _ RD H _ _ A1 A2 b1 b2 E1 E2) as [Q1 Q2].
  destruct E1 as [_ [C1 E1]]. destruct E2 as [_ [C2 E2]]. rewrite C in E1, E2.
  assert (E1' : hold_loop ROps (as_flags a) (sh1 (elems M)) (repeat (zero ROps) (length (m_points m))) = Ok (elems A1, b1)) by exact E1.
  assert (E2' : hold_loop ROps (as_flags a) (sh2 (elems M)) (repeat (zero ROps) (length (m_points m))) = Ok (elems A2, b2)) by exact E2.
  unfold weights. rewrite EM. cbn [bind]. rewrite E1', E2'. cbn [bind]. change (T ROps) with R in *. change (zero ROps) with 0.
  replace (mkCoo (elems A1) (cm M)) with A1 by (destruct A1; cbn in *; congruence). replace (mkCoo (elems A2) (cm M)) with A2 by (destruct A2; cbn in *; congruence). rewrite Q1, Q2. reflexivity.
Qed.
(** ** the field scaled *)
Lemma scaled_loop : forall A (m : mesh ROps A) fl k l gs (B : list pt) (f0 f : pt), force_loop ROps A m fl gs B l f0 = Ok f ->
  force_loop ROps A m fl gs (map (fun b : pt => P (k * px b) (k * py b)) B) l (P (k * k * px f0) (k * k * py f0)) = Ok (P (k * k * px f) (k * k * py f)).
Proof.
  intros A m fl k. induction l as [|t l IH]; intros gs B f0 f H; [destruct gs; cbn in H |- *; injection H as <-; reflexivity|]; destruct gs as [|g gs]; [discriminate H|]; cbn [force_loop] in H |- *.
  destruct B as [|b B]; [discriminate|]. cbn [map]. ib H ok E. cbn [bind]. ib H f1 E1. apply IH in H. rewrite <- H.
  destruct ok; [|injection E1 as <-; reflexivity]. ib E1 tp E2. destruct tp as [[p1 p2] p3]. ib E1 ar E3. ib E1 hf E4. injection E1 as <-. rewrite ?E2; cbn [bind]; rewrite ?E3; cbn [bind]; rewrite ?E4; cbn [bind]. apply f_equal.
  apply pt_ext; rewrite ?px_P, ?py_P; cbn; unfold P, px, py; cbn; ring.
Qed.
Lemma scaled_integral : forall A (m : mesh ROps A) fl gs (B : list pt) k f, force_loop ROps A m fl gs B (m_tris m) (vzero ROps) = Ok f ->
  force_loop ROps A m fl gs (map (fun b : pt => P (k * px b) (k * py b)) B) (m_tris m) (vzero ROps) = Ok (P (k * k * px f) (k * k * py f)).
Proof.
  intros A m fl gs B k f H. rewrite <- (scaled_loop A m fl k (m_tris m) gs B (vzero ROps) f H). apply f_equal. apply pt_ext; rewrite ?px_P, ?py_P; cbn; unfold px, py; cbn; ring.
Qed.
