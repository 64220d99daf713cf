(** The problem that defines the weights, and the integrals as sums over the shell. *)
From Coq Require Import String.
From Coq Require Import List Arith ZArith NArith Bool Lia Permutation.
From Coq Require Import Reals Lra.
From Verif Require Import Base SumR AlgebraModel AlgebraSpec SolversModel SolversSpec GeometryModel GeometrySpec DrawingModel DrawingSpec MeshModel MeshSpec ForceModel ForceSpec.
From Verif Require Import Geometry_proofs Fem_proofs Energy_proofs MeshGeo_proofs Integral_proofs Coo_proofs Csr_proofs Algebra_bridge Edges_proofs Hold_proofs Shell_proofs Adjacency_proofs.
Import ListNotations.

(** ** the table of triangle numbers *)
Fixpoint idl (v : nat) (l : list tri) (k : nat) : list nat :=
  match l with
  | [] => []
  | t :: l' => repeat k (count v (corners t)) ++ idl v l' (S k)
  end.
Lemma push_rows : forall k vs (tb : table nat) tb', forM_list vs (fun v tb => push 18 tb v k) tb = Ok tb' ->
  length tb' = length tb /\ forall v, nth v tb' [] = nth v tb [] ++ repeat k (count v vs).
Proof.
  intros k. induction vs as [|w vs IH]; intros tb tb' H; cbn [forM_list] in H.
  - injection H as <-. split; auto. intros v. cbn. rewrite app_nil_r. auto.
  - ib H tb1 E. unfold push in E. ib E r Er. destruct (Nat.leb 18 (length r)); [discriminate E|]. unfold set in E. destruct (Nat.ltb_spec w (length tb)) as [L|]; [|discriminate]. injection E as <-.
    apply get_ok in Er. destruct (IH _ _ H) as [L1 R1]. rewrite upd_length in L1. split; auto. intros v. rewrite R1, nth_upd, count_cons by auto.
    rewrite (Nat.eqb_sym w v). destruct (Nat.eqb_spec v w) as [->|N]; [|auto]. rewrite (nth_error_nth _ _ _ Er), <- app_assoc. reflexivity.
Qed.
Lemma ids_rows : forall l k (tb : table nat) tb', ids_loop l k tb = Ok tb' -> length tb' = length tb /\ forall v, nth v tb' [] = nth v tb [] ++ idl v l k.
Proof.
  induction l as [|t l IH]; intros k tb tb' H; cbn [ids_loop idl] in *.
  - injection H as <-. split; auto. intros v. rewrite app_nil_r. auto.
  - ib H tb1 E. apply push_rows in E. destruct E as [L1 R1]. apply IH in H. destruct H as [L2 R2]. split; [congruence|]. intros v. rewrite R2, R1, app_assoc. auto.
Qed.
Lemma adj_ids_rows : forall o A (m : mesh o A) tb, adj_ids o A m = Ok tb -> length tb = length (m_points m) /\ forall v, nth v tb [] = idl v (m_tris m) 0.
Proof.
  intros o A m tb H. apply ids_rows in H. rewrite repeat_length in H. destruct H as [L R]. split; auto. intros v. rewrite R.
  change (nth v (repeat [] (length (m_points m))) []) with (trow (repeat (@nil nat) (length (m_points m))) v). rewrite trow_empty. auto.
Qed.
Lemma idl_length : forall v l k, length (idl v l k) = degree l v.
Proof. intros v. induction l as [|t l IH]; intros k; cbn [idl]; auto. rewrite app_length, repeat_length, IH, degree_cons. auto. Qed.
Lemma idl_in : forall v l k id, In id (idl v l k) -> k <= id /\ id - k < length l /\ 0 < count v (corners (nth (id - k) l (0, 0, 0))).
Proof.
  intros v. induction l as [|t l IH]; intros k id H; [destruct H|]. cbn [idl] in H. apply in_app_or in H. destruct H as [H|H].
  - assert (count v (corners t) <> 0) by (intros Q; rewrite Q in H; destruct H). apply repeat_spec in H. subst. rewrite Nat.sub_diag. cbn [nth length]. lia.
  - apply IH in H. destruct H as [H1 [H2 H3]]. replace (id - k) with (S (id - S k)) by lia. cbn [nth length]. repeat split; auto; lia.
Qed.
Local Open Scope R_scope.
Lemma suml_idl : forall A (m : mesh ROps A) v l k (f : nat -> R), Forall (fun t => tri_turn m t <> 0) l ->
  suml (idl v l k) f = suml (combine (seq k (length l)) l) (fun x => on_corner v (snd x) (f (fst x))).
Proof.
  intros A m v. induction l as [|t l IH]; intros k f H; [reflexivity|]. inversion H as [|? ? H1 H2]; subst.
  cbn [idl length seq combine]. rewrite suml_cons. cbn [fst snd]. rewrite suml_app, suml_repeat, IH by auto. f_equal. unfold on_corner.
  destruct (count_corner A m t v H1) as [[_ ->]|[_ ->]]; cbn; ring.
Qed.
Lemma numbered_in : forall (l : list tri) k x, In x (combine (seq k (length l)) l) -> (k <= fst x)%nat /\ nth_error l (fst x - k) = Some (snd x).
Proof.
  induction l as [|t l IH]; intros k x H; [destruct H|]. cbn in H. destruct H as [<-|H].
  - cbn. rewrite Nat.sub_diag. auto.
  - apply IH in H. destruct H as [H1 H2]. split; [lia|]. replace (fst x - k)%nat with (S (fst x - S k)) by lia. exact H2.
Qed.

(** ** the weight of a triangle *)
Lemma limit_eq : forall x, limit ROps x 1 1000 = Rmax 1 (Rmin 1000 x).
Proof.
  intros x. unfold limit, gtb. cbn. unfold Rltb. destruct (Rlt_dec x 1).
  - rewrite Rmin_right, Rmax_left by lra. auto.
  - destruct (Rlt_dec 1000 x); [rewrite Rmin_left, Rmax_right by lra|rewrite Rmin_right, Rmax_right by lra]; auto.
Qed.
Lemma error_weight_range : forall lo hi e, 1 <= error_weight lo hi e <= 1000.
Proof. intros. unfold error_weight. split; [apply Rmax_l|]. apply Rmax_lub; [lra|apply Rmin_l]. Qed.

Section Problem.
Variable A : Type.
Variable m : mesh ROps A.
Variable B : list pt.
Variable a : assets ROps.
Variable K : pt -> pt -> pt -> pt -> res (R * R).
Notation n := (length (m_points m)).
Notation ts := (m_tris m).
Hypothesis U : is_u32 n.
Hypothesis shape : Forall (tri_in n) ts.
Hypothesis prop : proper m.
Hypothesis LB : length B = length ts.
Hypothesis LE : length (as_errs a) = length ts.
Hypothesis range : as_min a <> as_max a.
(** what the stress factors are in the triangle id *)
Variable k1 k2 : nat -> tri -> R.
Hypothesis HK : forall id t i w2 w3, nth_error ts id = Some t -> seen_from m t i w2 w3 -> is_corner i t -> K (field B id) (pos m i) (pos m w2) (pos m w3) = Ok (k1 id t, k2 id t).

Definition wt (id : nat) : R := error_weight (as_min a) (as_max a) (nth id (as_errs a) 0).
Definition kg (id : nat) (t : tri) (u : nat) : R := k1 id t * hatx m t u + k2 id t * haty m t u.
Definition kel (id : nat) (t : tri) (u v : nat) : R := Rabs (tri_turn m t) * wt id * kg id t u * kg id t v.
Lemma kel_sym : forall id t u v, kel id t u v = kel id t v u.
Proof. intros; unfold kel; ring. Qed.
Lemma kel_off : forall id t u v, ~ is_corner u t -> kel id t u v = 0.
Proof. intros id t u v H. unfold kel, kg. destruct (hat_off m t u H) as [-> ->]. ring. Qed.
Definition adds (M M' : coo R) (d : nat -> nat -> R) : Prop :=
  mat A m M' /\ (forall i j, touched M i j -> touched M' i j) /\ forall x y, (x <= y)%nat -> (y < n)%nat -> value 0 M' x y = value 0 M x y + d x y.
Lemma adds_trans : forall M1 M2 M3 d1 d2, adds M1 M2 d1 -> adds M2 M3 d2 -> adds M1 M3 (fun x y => d1 x y + d2 x y).
Proof. intros M1 M2 M3 d1 d2 [G1 [T1 V1]] [G2 [T2 V2]]. split; auto. split; auto. intros x y L1 L2. rewrite V2, V1 by auto. ring. Qed.
Lemma adds_ext : forall M M' d d', (forall x y, (x <= y)%nat -> (y < n)%nat -> d x y = d' x y) -> adds M M' d -> adds M M' d'.
Proof. intros M M' d d' H [G [T0 V0]]. split; auto. split; auto. intros x y L1 L2. rewrite V0, H by auto. auto. Qed.
Lemma adds_refl : forall M, mat A m M -> adds M M (fun _ _ => 0).
Proof. intros M H. split; auto. split; auto. intros; ring. Qed.
Lemma entry_plus : forall M i v c, mat A m M -> (i < n)%nat -> (v < n)%nat ->
  exists M', (if Nat.leb i v then coo_modify 0 M i v (fun x => x + c) else Ok M) = Ok M' /\ ((i <= v)%nat -> touched M' i v) /\
    adds M M' (fun x y => if Nat.eqb x i then (if Nat.eqb y v then c else 0) else 0).
Proof using All.
  intros M i v c HM Hi Hv. destruct (Nat.leb_spec i v) as [L|L].
  - destruct (coo_modify_spec 0 M i v (fun x => x + c)) as [[L' _]|[_ [M' [E [Hm [F [O [ND I]]]]]]]]; [lia|].
    exists M'. split; auto. split; [intros _; apply I; auto|].
    destruct (entry_frame A m U M M' i v (fun x => x + c) Hi Hv) as [G _]; auto; [destruct (Nat.leb_spec i v); [auto|lia]|].
    split; auto. split; [intros x y Hxy; apply I; auto|].
    intros x y Hxy Hy. rewrite !value_le by auto.
    destruct (N.eq_dec (key x y) (key i v)) as [Q|Q].
    + apply key_inj in Q; try (eapply is_u32_le; [|exact U]; lia). destruct Q as [-> ->]. rewrite F, !Nat.eqb_refl. auto.
    + rewrite O by auto. destruct (Nat.eqb_spec x i); [|ring]. destruct (Nat.eqb_spec y v); [|ring]. subst. contradiction.
  - exists M. split; auto. split; [lia|]. split; [auto|split; [auto|]].
    intros x y Hxy Hy. destruct (Nat.eqb_spec x i); [|ring]. destruct (Nat.eqb_spec y v); [|ring]. lia.
Qed.

Lemma shell_elem_run : forall i id t M, mat A m M -> nth_error ts id = Some t -> is_corner i t ->
  exists M', shell_elem ROps A K m B a i id M = Ok M' /\ touched M' i i /\ adds M M' (fun x y => if Nat.eqb x i then kel id t i y else 0).
Proof using All.
  intros i id t M HM Ht Hi.
  assert (HD : tri_turn m t <> 0). { unfold proper in prop. rewrite Forall_forall in prop. apply prop. eapply nth_error_In; eauto. }
  assert (HT : tri_in n t). { rewrite Forall_forall in shape. apply shape. eapply nth_error_In; eauto. }
  assert (Hid : (id < length ts)%nat) by (apply nth_error_Some; congruence).
  assert (CN : forall u, is_corner u t -> (u < n)%nat). { destruct HT as [X [Y Z]]. intros u [->|[->| ->]]; auto. }
  unfold shell_elem. unfold get at 1. rewrite Ht. cbn [bind]. rewrite (get_lt _ B id org) by (rewrite LB; auto). cbn [bind]. fold (field B id).
  destruct (seen m t i HD Hi) as [v2 [v3 [-> [C2 [C3 [HT2 [HS1 HS2]]]]]]]. cbn [bind].
  rewrite double_pos by auto. cbn [bind]. rewrite HT2.
  assert (W : exists w2 w3, (if ltb ROps (tri_turn m t) (zero ROps) then (v3, v2) else (v2, v3)) = (w2, w3) /\ seen_from m t i w2 w3).
  { cbn. unfold Rltb. destruct (Rlt_dec (tri_turn m t) 0); eexists; eexists; split; eauto. apply HS2. lra. }
  destruct W as [w2 [w3 [-> SF]]]. pose proof (HK id t i w2 w3 Ht SF Hi) as EK. destruct SF as [N1 [N2 [N3 [W2 [W3 [WA [WD [E1 [E2 [E3 [E4 [E5 E6]]]]]]]]]]]].
  rewrite double_pos by auto. cbn [bind]. rewrite WD. rewrite !get_pos by auto. cbn [bind].
  assert (HA : Rabs (tri_turn m t) <> 0) by (apply Rabs_no_R0; auto).
  rewrite !Rdiv_ok by exact HA. cbn [bind].
  change (sub ROps) with Rminus. change (@vx ROps) with px. change (@vy ROps) with py.
  rewrite E1, E2, E3, E4, E5, E6. change (T ROps) with R. rewrite EK. cbn [bind].
  rewrite (get_lt R (as_errs a) id 0 (eq_ind_r (fun k => (id < k)%nat) Hid LE)). cbn [bind].
  assert (ES : fsqrt ROps (fabs ROps (nth id (as_errs a) 0)) = Ok (sqrt (Rabs (nth id (as_errs a) 0)))).
  { cbn. unfold Rsqrtr. destruct (Rlt_dec _ 0) as [Q|Q]; auto. exfalso. pose proof (Rabs_pos (nth id (as_errs a) 0)). change (T ROps) with R in *. lra. }
  change (T ROps) with R in ES |- *. rewrite ES. cbn [bind].
  assert (EU : umap ROps (sqrt (Rabs (nth id (as_errs a) 0))) (as_min a) (as_max a) (one ROps) (ofZ ROps 1000) =
    Ok ((sqrt (Rabs (nth id (as_errs a) 0)) - as_min a) * 999 / (as_max a - as_min a) + 1)).
  { unfold umap. rewrite Rdiv_ok. - cbn [bind]. apply f_equal. cbn. change (T ROps) with R. unfold Rdiv. ring. - cbn. intros Q. apply range. lra. }
  change (T ROps) with R in EU |- *. rewrite EU. cbn [bind]. change (one ROps) with 1. change (ofZ ROps 1000) with 1000. rewrite limit_eq. match goal with |- context [Rmax 1 ?z] => change (Rmax 1 z) with (wt id) end.
  change (mul ROps) with Rmult. change (add ROps) with Rplus. change (zero ROps) with 0. change (T ROps) with R.
  fold (kg id t i) (kg id t w2) (kg id t w3). fold (kel id t i i) (kel id t i w2) (kel id t i w3).
  destruct (entry_plus M i i (kel id t i i) HM (CN _ Hi) (CN _ Hi)) as [M1 [-> [T1 A1]]]. cbn [bind].
  destruct (entry_plus M1 i w2 (kel id t i w2) (proj1 A1) (CN _ Hi) (CN _ W2)) as [M2 [-> [_ A2]]]. cbn [bind].
  destruct (entry_plus M2 i w3 (kel id t i w3) (proj1 A2) (CN _ Hi) (CN _ W3)) as [M3 [-> [_ A3]]]. cbn [bind].
  exists M3. split; auto. split; [apply A3, A2, T1; auto|].
  eapply adds_ext; [|eapply adds_trans; [exact A1|eapply adds_trans; [exact A2|exact A3]]].
  intros x y Hxy Hy. cbn beta. destruct (Nat.eqb_spec x i); [|ring].
  destruct (Nat.eqb_spec y i) as [->|B1].
  { destruct (Nat.eqb_spec i w2); [contradiction|]. destruct (Nat.eqb_spec i w3); [contradiction|]. ring. }
  destruct (Nat.eqb_spec y w2) as [->|B2]; [destruct (Nat.eqb_spec w2 w3); [contradiction|]; ring|].
  destruct (Nat.eqb_spec y w3) as [->|B3]; [ring|].
  rewrite (kel_sym id t i y), kel_off; [ring|]. intros HC. apply WA in HC. tauto.
Qed.
Lemma shell_row_run : forall i ids M, mat A m M -> (forall id, In id ids -> (id < length ts)%nat /\ is_corner i (ptr m id)) ->
  exists M', forM_list ids (shell_elem ROps A K m B a i) M = Ok M' /\ ((0 < length ids)%nat -> touched M' i i) /\
    adds M M' (fun x y => if Nat.eqb x i then suml ids (fun id => kel id (ptr m id) i y) else 0).
Proof using All.
  intros i ids. induction ids as [|id ids IH]; intros M HM He; cbn [forM_list].
  - exists M. split; auto. split; [cbn; lia|]. eapply adds_ext; [|apply adds_refl; auto]. intros x y _ _. destruct (Nat.eqb x i); reflexivity.
  - destruct (He id) as [H1 H2]; [cbn; auto|].
    destruct (shell_elem_run i id (ptr m id) M HM (nth_error_nth' _ _ H1) H2) as [M1 [-> [T1 A1]]]. cbn [bind].
    destruct (IH M1 (proj1 A1)) as [M2 [-> [T2 A2]]]; [intros; apply He; cbn; auto|].
    exists M2. split; auto. split; [intros _; apply A2; auto|].
    eapply adds_ext; [|eapply adds_trans; [exact A1|exact A2]].
    intros x y _ _. cbn beta. destruct (Nat.eqb x i); [reflexivity|ring].
Qed.
Lemma shell_from_run : forall tb, length tb = n -> as_ids a = tb ->
  (forall v id, In id (nth v tb []) -> (id < length ts)%nat /\ is_corner v (ptr m id)) ->
  forall k j M, (j + k <= n)%nat -> mat A m M ->
  exists M', forM_from k j (shell_vertex ROps A K m B a) M = Ok M' /\ (forall i, (j <= i < j + k)%nat -> (0 < length (nth i tb []))%nat -> touched M' i i) /\
    adds M M' (fun x y => if Nat.leb j x && Nat.ltb x (j + k) then suml (nth x tb []) (fun id => kel id (ptr m id) x y) else 0).
Proof using All.
  intros tb Hn Ea He k. induction k as [|k IH]; intros j M Hk HM; cbn [forM_from].
  - exists M. split; auto. split; [lia|]. eapply adds_ext; [|apply adds_refl; auto].
    intros u v _ _. cbn beta. destruct (Nat.leb_spec j u), (Nat.ltb_spec u (j + 0)); cbn; auto; lia.
  - unfold shell_vertex at 1. rewrite Ea, (get_lt _ tb j []) by lia. cbn [bind].
    destruct (shell_row_run j (nth j tb []) M HM (He j)) as [M1 [-> [T1 A1]]]. cbn [bind].
    destruct (IH (S j) M1 ltac:(lia) (proj1 A1)) as [M2 [-> [T2 A2]]].
    exists M2. split; auto. split.
    + intros i Hi Hl. destruct (Nat.eq_dec i j) as [->|D]; [apply A2; auto|apply T2; auto; lia].
    + eapply adds_ext; [|eapply adds_trans; [exact A1|exact A2]].
      intros u v _ _. cbn beta. destruct (Nat.eqb_spec u j) as [->|D].
      * replace (Nat.leb j j && Nat.ltb j (j + S k)) with true by (symmetry; apply andb_true_iff; split; [apply Nat.leb_le|apply Nat.ltb_lt]; lia).
        replace (Nat.leb (S j) j && Nat.ltb j (S j + k)) with false by (symmetry; apply andb_false_iff; left; apply Nat.leb_gt; lia). ring.
      * replace (Nat.leb j u && Nat.ltb u (j + S k)) with (Nat.leb (S j) u && Nat.ltb u (S j + k)); [ring|].
        f_equal; [destruct (Nat.leb_spec (S j) u), (Nat.leb_spec j u); auto; lia|f_equal; lia].
Qed.

Hypothesis HI : adj_ids ROps A m = Ok (as_ids a).
Lemma shell_matrix_val : exists M, shell_matrix ROps A K m B a = Ok M /\ mat A m M /\ (all_used m -> all_diag_touched M) /\
  forall x y, (x < n)%nat -> (y < n)%nat -> value 0 M x y = sum_ids m (fun id t => kel id t x y).
Proof using All.
  destruct (adj_ids_rows _ _ _ _ HI) as [L R0].
  assert (HE : forall v id, In id (nth v (as_ids a) []) -> (id < length ts)%nat /\ is_corner v (ptr m id)).
  { intros v id H. rewrite R0 in H. apply idl_in in H. rewrite Nat.sub_0_r in H. destruct H as [_ [H1 H2]]. split; auto.
    unfold ptr. unfold proper in prop. rewrite Forall_forall in prop.
    destruct (count_corner A m (nth id ts (0, 0, 0)%nat) v) as [[H _]|[_ H]]; auto; [apply prop; apply nth_In; auto|lia]. }
  assert (G0 : mat A m (coo_new R n)) by (split; [split; [constructor|intros ? ? []]|reflexivity]).
  destruct (shell_from_run (as_ids a) L eq_refl HE n O (coo_new R n) ltac:(lia) G0) as [M [EM [T1 [G [_ VM]]]]].
  exists M. split; [exact EM|]. split; auto. split.
  { intros Us i Hi. assert (Hi' : (i < n)%nat) by (eapply Nat.lt_le_trans; [exact Hi|]; apply Nat.eq_le_incl; exact (proj2 G)). apply T1; [lia|]. rewrite R0, idl_length. apply Us; auto. }
  assert (VU : forall x y, (x <= y)%nat -> (y < n)%nat -> value 0 M x y = sum_ids m (fun id t => kel id t x y)).
  { intros x y Hxy Hy. rewrite VM by auto. rewrite (value_le R 0 (coo_new R n) x y) by auto. cbn [coo_new elems find_key].
    replace (Nat.leb 0 x && Nat.ltb x (0 + n)) with true by (symmetry; apply andb_true_iff; split; [apply Nat.leb_le|apply Nat.ltb_lt]; lia).
    rewrite Rplus_0_l, R0, (suml_idl A m) by auto. unfold sum_ids. apply suml_ext. intros z Hz. apply numbered_in in Hz. rewrite Nat.sub_0_r in Hz. destruct Hz as [_ Ht].
    unfold ptr. rewrite (nth_error_nth _ _ _ Ht). unfold on_corner.
    destruct (count_corner A m (snd z) x) as [[C ->]|[C ->]].
    - unfold proper in prop. rewrite Forall_forall in prop. apply prop. eapply nth_error_In; eauto.
    - reflexivity.
    - cbn. rewrite kel_off by auto. ring. }
  intros x y Hx Hy. destruct (Nat.le_ge_cases x y) as [H|H]; auto.
  replace (value 0 M x y) with (value 0 M y x) by (unfold value; rewrite Nat.min_comm, Nat.max_comm; auto).
  rewrite VU by auto. unfold sum_ids. apply suml_ext. intros z _. rewrite kel_sym. auto.
Qed.
Lemma kel_quad : forall id t x, sumn n (fun i => sumn n (fun j => x i * kel id t i j * x j)) =
  Rabs (tri_turn m t) * wt id * ((k1 id t * gx m t x + k2 id t * gy m t x) * (k1 id t * gx m t x + k2 id t * gy m t x)).
Proof.
  intros id t x.
  assert (Q : sumn n (fun v => x v * kg id t v) = k1 id t * gx m t x + k2 id t * gy m t x).
  { unfold gx, gy. rewrite <- !sumn_scal, <- sumn_plus. apply sumn_ext. intros v _. unfold kg. ring. }
  rewrite <- Q.
  rewrite (sumn_ext n _ (fun i => Rabs (tri_turn m t) * wt id * sumn n (fun v => x v * kg id t v) * (x i * kg id t i))).
  - rewrite sumn_scal. ring.
  - intros i _. rewrite (sumn_ext n _ (fun j => (Rabs (tri_turn m t) * wt id * (x i * kg id t i)) * (x j * kg id t j))) by (intros; unfold kel; ring).
    rewrite sumn_scal. ring.
Qed.
Lemma shell_matrix_quad : exists M, shell_matrix ROps A K m B a = Ok M /\ valid_coo M /\ cm M = n /\ (all_used m -> all_diag_touched M) /\
  forall x gs, Forall2 (gradient_of m x) ts gs ->
  quad n (value 0 M) x = sum_ids m (fun id t => 2 * tri_area m t * wt id * ((k1 id t * px (nth id gs org) + k2 id t * py (nth id gs org)) * (k1 id t * px (nth id gs org) + k2 id t * py (nth id gs org)))).
Proof using All.
  destruct shell_matrix_val as [M [EM [[G1 G2] [HT HV]]]]. exists M. split; auto. split; auto. split; auto. split; auto.
  intros x gs HG. unfold quad, sum_ids.
  rewrite (sumn_ext n _ (fun i => suml (combine (seq 0 (length ts)) ts) (fun z => sumn n (fun j => x i * kel (fst z) (snd z) i j * x j)))).
  - rewrite <- suml_sumn. apply suml_ext. intros z Hz. apply numbered_in in Hz. rewrite Nat.sub_0_r in Hz. destruct Hz as [_ Ht]. rewrite kel_quad.
    assert (Hd : tri_turn m (snd z) <> 0). { unfold proper in prop. rewrite Forall_forall in prop. apply prop. eapply nth_error_In; eauto. }
    assert (Hin : tri_in n (snd z)). { rewrite Forall_forall in shape. apply shape. eapply nth_error_In; eauto. }
    assert (EG : nth (fst z) gs org = P (gx m (snd z) x) (gy m (snd z) x)).
    { apply (grad_unique m (snd z) Hd x); [|apply grad_hat; auto].
      assert (F : forall (l : list tri) gs i t, Forall2 (gradient_of m x) l gs -> nth_error l i = Some t -> gradient_of m x t (nth i gs org)).
      { clear. intros l gs i t H. revert i. induction H as [|? ? ? ? H1 H2 IH]; intros [|i] E; cbn in E; try discriminate E; cbn; [injection E as <-; auto|auto]. }
      apply (F ts gs); auto. }
    rewrite EG, px_P, py_P. unfold tri_area. field.
  - intros i Hi. rewrite suml_sumn. apply sumn_ext. intros j Hj. rewrite HV by auto. unfold sum_ids.
    rewrite (suml_ext _ _ (fun z => x i * kel (fst z) (snd z) i j * x j) (fun z => (x i * x j) * kel (fst z) (snd z) i j)) by (intros; ring). rewrite suml_scal. ring.
Qed.
End Problem.

(** ** the factors *)
Lemma force_factors : forall b p1 p2 p3 : pt, force_K ROps b p1 p2 p3 = Ok ((py b * py b - px b * px b) / 2, - (px b * py b)).
Proof.
  intros b p1 p2 p3. unfold force_K. rewrite half_ok. cbn [bind].
  assert (EN : normalize ROps (@mkV ROps (one ROps) (zero ROps)) = Ok (P 1 0)).
  { unfold normalize. rewrite norm_any. cbn [bind]. unfold norm2, px, py. cbn [vx vy one zero ROps eqb div]. replace (1 * 1 + 0 * 0) with 1 by ring. rewrite sqrt_1.
    match goal with |- context [Reqb ?a 0] => destruct (Reqb a 0) eqn:Q end; [reflexivity|]. rewrite !Rdivr_ok by lra. cbn [bind]. apply f_equal. apply pt_ext; unfold px, py, P; cbn; field. }
  rewrite EN. cbn [bind]. apply f_equal. unfold px, py, P. cbn. change (T ROps) with R. f_equal; field.
Qed.
Lemma torque_factors : forall c b p1 p2 p3 : pt, torque_K ROps c b p1 p2 p3 =
  let r := P ((px p1 + px p2 + px p3) / 3 - px c) ((py p1 + py p2 + py p3) / 3 - py c) in
  Ok (- py r * (norm2 b / 2) - px b * cross_pt r b, px r * (norm2 b / 2) - py b * cross_pt r b).
Proof.
  intros c b p1 p2 p3. unfold torque_K. rewrite half_ok. cbn [bind]. unfold vdivs. cbn [div ROps ofZ]. rewrite !Rdivr_ok by lra. cbn [bind].
  apply f_equal. unfold cross_pt, norm2, px, py, P. cbn. change (T ROps) with R. f_equal; field.
Qed.
Lemma corner_sums : forall A (m : mesh ROps A) t i w2 w3, tri_turn m t <> 0 -> seen_from m t i w2 w3 -> is_corner i t -> forall f : nat -> R, f i + f w2 + f w3 = f (t0 t) + f (t1 t) + f (t2 t).
Proof.
  intros A m t i w2 w3 HD [N1 [N2 [N3 [W2 [W3 _]]]]] Hi f.
  destruct Hi as [Hi|[Hi|Hi]], W2 as [W2|[W2|W2]], W3 as [W3|[W3|W3]]; try congruence; rewrite Hi, W2, W3; ring.
Qed.
Section Two.
Variable A : Type.
Variable m : mesh ROps A.
Variable B : list pt.
Variable a : assets ROps.
Hypothesis U : is_u32 (length (m_points m)).
Hypothesis shape : Forall (tri_in (length (m_points m))) (m_tris m).
Hypothesis prop : proper m.
Hypothesis LB : length B = length (m_tris m).
Hypothesis TB : tables_of m a.
Hypothesis range : as_min a <> as_max a.
Definition ew (id : nat) : R := error_weight (as_min a) (as_max a) (nth id (as_errs a) 0).
Lemma force_problem : exists M, shell_matrix ROps A (force_K ROps) m B a = Ok M /\ valid_coo M /\ cm M = length (m_points m) /\ (all_used m -> all_diag_touched M) /\
  forall x gs, Forall2 (gradient_of m x) (m_tris m) gs ->
  quad (length (m_points m)) (value 0 M) x = sum_ids m (fun id t => 2 * tri_area m t * ew id * (px (stress_on (field B id) (nth id gs org)) * px (stress_on (field B id) (nth id gs org)))).
Proof using All.
  destruct TB as [T1 [T2 T3]].
  destruct (shell_matrix_quad A m B a (force_K ROps) U shape prop LB T2 range (fun id _ => (py (field B id) * py (field B id) - px (field B id) * px (field B id)) / 2) (fun id _ => - (px (field B id) * py (field B id)))) as [M [E1 [E2 [E3 [E4 E5]]]]]; auto.
  - intros. apply force_factors.
  - exists M. split; auto. split; auto. split; auto. split; auto. intros x gs HG. rewrite (E5 x gs HG). unfold sum_ids. apply suml_ext. intros z _.
    unfold wt, ew, stress_on, norm2. rewrite px_P. field.
Qed.
Lemma torque_problem : forall c, exists M, shell_matrix ROps A (torque_K ROps c) m B a = Ok M /\ valid_coo M /\ cm M = length (m_points m) /\ (all_used m -> all_diag_touched M) /\
  forall x gs, Forall2 (gradient_of m x) (m_tris m) gs ->
  quad (length (m_points m)) (value 0 M) x = sum_ids m (fun id t => 2 * tri_area m t * ew id * (cross_pt (minus_pt (centroid m t) c) (stress_on (field B id) (nth id gs org)) * cross_pt (minus_pt (centroid m t) c) (stress_on (field B id) (nth id gs org)))).
Proof using All.
  intros c. destruct TB as [T1 [T2 T3]].
  destruct (shell_matrix_quad A m B a (torque_K ROps c) U shape prop LB T2 range
    (fun id t => let r := minus_pt (centroid m t) c in - py r * (norm2 (field B id) / 2) - px (field B id) * cross_pt r (field B id))
    (fun id t => let r := minus_pt (centroid m t) c in px r * (norm2 (field B id) / 2) - py (field B id) * cross_pt r (field B id))) as [M [E1 [E2 [E3 [E4 E5]]]]]; auto.
  - intros id t i w2 w3 Ht S Hi. rewrite torque_factors. cbn zeta. unfold proper in prop. rewrite Forall_forall in prop. pose proof (prop t (nth_error_In _ _ Ht)) as HD.
    rewrite (corner_sums A m t i w2 w3 HD S Hi (fun v => px (pos m v))), (corner_sums A m t i w2 w3 HD S Hi (fun v => py (pos m v))). reflexivity.
  - exists M. split; auto. split; auto. split; auto. split; auto. intros x gs HG. rewrite (E5 x gs HG). unfold sum_ids. apply suml_ext. intros z _.
    unfold wt, ew, stress_on, norm2, cross_pt. cbn zeta. rewrite !px_P, !py_P. field.
Qed.
End Two.
(** equal errors leave no weights at all *)
Lemma flat_problem : forall A (m : mesh ROps A) B a K, Forall (tri_in (length (m_points m))) (m_tris m) -> m_tris m <> [] -> tables_of m a -> as_min a = as_max a -> ~ is_ok (shell_matrix ROps A K m B a).
Proof.
  intros A m B a K shape NE [T1 [T2 T3]] Q [M H]. destruct (m_tris m) as [|t l] eqn:Et; [contradiction|]. clear NE.
  destruct (adj_ids_rows _ _ _ _ T1) as [L R0]. pose proof (Forall_inv shape) as [I0 _].
  destruct (up_ok_body _ _ _ _ _ (t0 t) H I0) as [s [s' E]]. unfold shell_vertex in E. rewrite (get_lt _ (as_ids a) (t0 t) []) in E by (rewrite L; auto). cbn [bind] in E.
  assert (C : (0 < count (t0 t) (corners t))%nat) by (unfold corners; rewrite count_cons, Nat.eqb_refl; lia).
  rewrite R0, Et in E. cbn [idl] in E. destruct (count (t0 t) (corners t)) as [|k]; [lia|]. cbn [repeat app forM_list] in E. ib E M1 EM. clear E.
  unfold shell_elem in EM. ib EM t' E1. ib EM Bi E2. ib EM oc E3. destruct oc as [v2 v3]. ib EM d E4. destruct (if ltb ROps d (zero ROps) then _ else _) as [w2 w3].
  ib EM D E5. ib EM p1 E6. ib EM p2 E7. ib EM p3 E8. ib EM b1 E9. ib EM b2 E10. ib EM b3 E11. ib EM c1 E12. ib EM c2 E13. ib EM c3 E14. ib EM kk E15. destruct kk as [kk1 kk2].
  ib EM er E16. ib EM ro E17. ib EM w E18. unfold umap in E18. rewrite Q in E18. ib E18 q E19. cbn in E19. unfold Rdivr in E19. destruct (Req_EM_T _ 0) as [Z|Z]; [discriminate E19|]. apply Z. change (T ROps) with R in *. ring.
Qed.

(** ** the integrals as sums *)
Section Sums.
Variable A : Type.
Variable m : mesh ROps A.
Variable fl : list flags.
Hypothesis LF : length fl = length (m_points m).
Lemma shell_test : forall t, tri_in (length (m_points m)) t -> in_shell fl t = Ok (in_the_shell fl t).
Proof using LF. intros t [T1 [T2 T3]]. apply in_shell_eq. rewrite LF. unfold corners; repeat constructor; auto. Qed.
Lemma force_sum : forall l k gs B (f0 : pt), Forall (tri_in (length (m_points m))) l -> length gs = length l -> length B = length l ->
  let s := fun c : pt -> R => suml (combine (seq k (length l)) l) (fun z => if in_the_shell fl (snd z) then tri_area m (snd z) * c (stress_on (field B (fst z - k)) (nth (fst z - k) gs org)) else 0) in
  force_loop ROps A m fl gs B l f0 = Ok (P (px f0 + s px) (py f0 + s py)).
Proof using LF.
  induction l as [|t l IH]; intros k gs B f0 HT LG LB; destruct gs as [|g gs]; try discriminate LG; destruct B as [|b B]; try discriminate LB; cbn zeta.
  - cbn. apply f_equal. apply pt_ext; rewrite ?px_P, ?py_P; ring.
  - cbn [length] in LG, LB. injection LG as LG. injection LB as LB. inversion HT as [|? ? Ht HT']; subst. cbn [force_loop]. rewrite shell_test by auto. cbn [bind length seq combine].
    assert (SH : forall c : pt -> R, suml (combine (seq (S k) (length l)) l) (fun z => if in_the_shell fl (snd z) then tri_area m (snd z) * c (stress_on (field (b :: B) (fst z - k)) (nth (fst z - k) (g :: gs) org)) else 0) =
      suml (combine (seq (S k) (length l)) l) (fun z => if in_the_shell fl (snd z) then tri_area m (snd z) * c (stress_on (field B (fst z - S k)) (nth (fst z - S k) gs org)) else 0)).
    { intros c. apply suml_ext. intros z Hz. apply numbered_in in Hz. destruct Hz as [Lz _]. replace (fst z - k)%nat with (S (fst z - S k)) by lia. reflexivity. }
    rewrite !suml_cons, !SH. cbn [fst snd]. rewrite Nat.sub_diag. cbn [nth]. change (field (b :: B) 0) with b.
    destruct (in_the_shell fl t).
    + rewrite tri_points_ok by auto. cbn [bind]. rewrite area_R. cbn [bind]. change (turn (pos m (t0 t)) (pos m (t1 t)) (pos m (t2 t))) with (tri_turn m t). rewrite half_ok. cbn [bind].
      rewrite (IH (S k) gs B _ HT' LG LB). apply f_equal. apply pt_ext; rewrite ?px_P, ?py_P; unfold stress_on; rewrite ?px_P, ?py_P; unfold tri_area, norm2, px, py; cbn; change (T ROps) with R; field.
    + cbn [bind]. rewrite (IH (S k) gs B f0 HT' LG LB). apply f_equal. apply pt_ext; rewrite ?px_P, ?py_P; ring.
Qed.
Lemma torque_sum : forall l k gs B c (f0 : R), Forall (tri_in (length (m_points m))) l -> length gs = length l -> length B = length l ->
  torque_loop ROps A m fl c gs B l f0 = Ok (f0 + suml (combine (seq k (length l)) l) (fun z => if in_the_shell fl (snd z) then
    tri_area m (snd z) * cross_pt (minus_pt (centroid m (snd z)) c) (stress_on (field B (fst z - k)) (nth (fst z - k) gs org)) else 0)).
Proof using LF.
  induction l as [|t l IH]; intros k gs B c f0 HT LG LB; destruct gs as [|g gs]; try discriminate LG; destruct B as [|b B]; try discriminate LB.
  - cbn. apply f_equal. change (T ROps) with R. ring.
  - cbn [length] in LG, LB. injection LG as LG. injection LB as LB. inversion HT as [|? ? Ht HT']; subst. cbn [torque_loop]. rewrite shell_test by auto. cbn [bind length seq combine].
    rewrite !suml_cons. cbn [fst snd]. rewrite Nat.sub_diag. cbn [nth]. change (field (b :: B) 0) with b.
    rewrite (suml_ext _ _ (fun z : nat * tri => if in_the_shell fl (snd z) then tri_area m (snd z) * cross_pt (minus_pt (centroid m (snd z)) c) (stress_on (field (b :: B) (fst z - k)) (nth (fst z - k) (g :: gs) org)) else 0)
      (fun z => if in_the_shell fl (snd z) then tri_area m (snd z) * cross_pt (minus_pt (centroid m (snd z)) c) (stress_on (field B (fst z - S k)) (nth (fst z - S k) gs org)) else 0)).
    2:{ intros z Hz. apply numbered_in in Hz. destruct Hz as [Lz _]. replace (fst z - k)%nat with (S (fst z - S k)) by lia. reflexivity. }
    destruct (in_the_shell fl t).
    + rewrite tri_points_ok by auto. cbn [bind]. rewrite area_R. cbn [bind]. change (turn (pos m (t0 t)) (pos m (t1 t)) (pos m (t2 t))) with (tri_turn m t). rewrite half_ok. cbn [bind].
      unfold vdivs. cbn [div ROps ofZ]. rewrite !Rdivr_ok by lra. cbn [bind].
      rewrite (IH (S k) gs B c _ HT' LG LB). apply f_equal. unfold cross_pt, minus_pt, centroid, stress_on; rewrite ?px_P, ?py_P; unfold tri_area, norm2, px, py; cbn; change (T ROps) with R; field.
    + cbn [bind]. rewrite (IH (S k) gs B c f0 HT' LG LB). apply f_equal. change (T ROps) with R. ring.
Qed.
End Sums.
Lemma integral_values : forall A mu0 shuffle (m : mesh ROps A) depth B a, Forall (tri_in (length (m_points m))) (m_tris m) -> proper m -> length B = length (m_tris m) ->
  length (as_flags a) = length (m_points m) -> mu0 <> 0 ->
  (forall g gs, weights ROps A shuffle (force_K ROps) m B a = Ok g -> length g = length (m_points m) -> Forall2 (gradient_of m (vget g)) (m_tris m) gs ->
    let s := fun c : pt -> R => sum_ids m (fun i t => if in_the_shell (as_flags a) t then tri_area m t * c (stress_on (field B i) (nth i gs org)) else 0) in
    force_integral ROps A mu0 shuffle m depth B a = Ok (P (depth / mu0 * s px) (depth / mu0 * s py))) /\
  (forall c g gs, weights ROps A shuffle (torque_K ROps c) m B a = Ok g -> length g = length (m_points m) -> Forall2 (gradient_of m (vget g)) (m_tris m) gs ->
    torque_integral ROps A mu0 shuffle m depth B a c =
      Ok (depth / mu0 * sum_ids m (fun i t => if in_the_shell (as_flags a) t then tri_area m t * cross_pt (minus_pt (centroid m t) c) (stress_on (field B i) (nth i gs org)) else 0))).
Proof.
  intros A mu0 shuffle m depth B a HT HP LB LF N0.
  assert (UQ : forall x l gs gs', Forall (fun t => tri_turn m t <> 0) l -> Forall2 (gradient_of m x) l gs -> Forall2 (gradient_of m x) l gs' -> gs = gs').
  { intros x l gs gs' HL H. revert gs'. induction H as [|t g l gs H1 H2 IH]; intros gs' H'; inversion H'; subst; auto. inversion HL; subst. f_equal; auto. eapply (grad_unique m t); eauto. }
  split.
  - intros g gs HW Lg HG s. unfold force_integral. rewrite HW. cbn [bind]. destruct (computeGrad_ok m g HT HP Lg) as [gs' [EG HG']]. rewrite EG. cbn [bind].
    rewrite <- (UQ _ _ _ _ HP HG HG'). rewrite (force_sum A m (as_flags a) LF (m_tris m) 0 gs B (vzero ROps) HT (eq_sym (F2_length _ _ _ _ _ HG)) LB). cbn [bind div ROps one]. rewrite Rdivr_ok by exact N0. cbn [bind].
    apply f_equal. assert (SS : forall c : pt -> R, suml (combine (seq 0 (length (m_tris m))) (m_tris m)) (fun z => if in_the_shell (as_flags a) (snd z) then tri_area m (snd z) * c (stress_on (field B (fst z - 0)) (nth (fst z - 0) gs org)) else 0) = s c).
    { intros c. unfold s, sum_ids. apply suml_ext. intros z _. rewrite Nat.sub_0_r. auto. }
    rewrite !SS. unfold vmul. apply pt_ext; unfold px, py, P; cbn; change (T ROps) with R; field; exact N0.
  - intros c g gs HW Lg HG. unfold torque_integral. rewrite HW. cbn [bind]. destruct (computeGrad_ok m g HT HP Lg) as [gs' [EG HG']]. rewrite EG. cbn [bind].
    rewrite <- (UQ _ _ _ _ HP HG HG'). rewrite (torque_sum A m (as_flags a) LF (m_tris m) 0 gs B c (zero ROps) HT (eq_sym (F2_length _ _ _ _ _ HG)) LB). cbn [bind div ROps one]. rewrite Rdivr_ok by exact N0. cbn [bind].
    apply f_equal. unfold sum_ids.
    rewrite (suml_ext _ _ _ (fun z : nat * tri => if in_the_shell (as_flags a) (snd z) then tri_area m (snd z) * cross_pt (minus_pt (centroid m (snd z)) c) (stress_on (field B (fst z)) (nth (fst z) gs org)) else 0)) by (intros z _; rewrite Nat.sub_0_r; auto).
    cbn. change (T ROps) with R. field. exact N0.
Qed.

(** ** the weights are one number per node *)
Lemma ssor_loop_len : forall (C : csr R) w e k i (x r z p Ap : list R) s y, ssor_loop ROps C w e k i x r z p Ap s = Ok y -> length (fst y) = length x.
Proof.
  assert (Z : forall f (x y z : list R), zip2 ROps f x y = Ok z -> length z = length x).
  { intros f. induction x as [|a x IH]; intros y z H; destruct y as [|b y]; cbn in H; try discriminate H; try (injection H as <-; reflexivity). ib H r E. injection H as <-. cbn. f_equal. eapply IH; eauto. }
  intros C w e. induction k as [|k IH]; intros i x r z p Ap s y H; cbn [ssor_loop] in H; [injection H as <-; auto|].
  ib H Ap1 E1. ib H pAp E2. ib H al E3. ib H x1 E4. ib H r1 E5. ib H se E6. apply Z in E4. destruct (ltb ROps se _); [injection H as <-; auto|].
  ib H z1 E7. ib H rz E8. ib H be E9. ib H p1 E10. rewrite <- E4. eapply IH; eauto.
Qed.
Lemma weights_len : forall A shuffle K (m : mesh ROps A) B a g, weights ROps A shuffle K m B a = Ok g -> length g = length (m_points m).
Proof.
  intros A shuffle K m B a g H. unfold weights in H. ib H M E1. ib H lb E2. destruct lb as [l b]. ib H C E3. ib H om E4. ib H tol E5. ib H gr E6. destruct gr as [g' it]. injection H as <-.
  unfold ssor_pcg in E6. ib E6 r E7. ib E6 z E8. ib E6 se E9. ib E6 rz E10. destruct (ltb ROps se _).
  - injection E6 as <- <-. apply repeat_length.
  - apply ssor_loop_len in E6. cbn [fst] in E6. rewrite E6. apply repeat_length.
Qed.
Lemma div_ok_nz : forall a b s, div ROps a b = Ok s -> b <> 0.
Proof. intros a b s Q. cbn in Q. unfold Rdivr in Q. destruct (Req_EM_T b 0); [discriminate Q|auto]. Qed.
Lemma integrals_are : forall A mu0 shuffle (m : mesh ROps A) depth B a, Forall (tri_in (length (m_points m))) (m_tris m) -> proper m -> length B = length (m_tris m) ->
  length (as_flags a) = length (m_points m) ->
  (forall f, force_integral ROps A mu0 shuffle m depth B a = Ok f -> exists g gs, weights ROps A shuffle (force_K ROps) m B a = Ok g /\ Forall2 (gradient_of m (vget g)) (m_tris m) gs /\
    let s := fun c : pt -> R => sum_ids m (fun i t => if in_the_shell (as_flags a) t then tri_area m t * c (stress_on (field B i) (nth i gs org)) else 0) in
    px f = depth / mu0 * s px /\ py f = depth / mu0 * s py) /\
  (forall c q, torque_integral ROps A mu0 shuffle m depth B a c = Ok q -> exists g gs, weights ROps A shuffle (torque_K ROps c) m B a = Ok g /\ Forall2 (gradient_of m (vget g)) (m_tris m) gs /\
    q = depth / mu0 * sum_ids m (fun i t => if in_the_shell (as_flags a) t then tri_area m t * cross_pt (minus_pt (centroid m t) c) (stress_on (field B i) (nth i gs org)) else 0)).
Proof.
  intros A mu0 shuffle m depth B a HT HP LB LF.
  split.
  - intros f H. pose proof H as H'. unfold force_integral in H'. ib H' g E1. ib H' gs' E2. ib H' F E3. ib H' s E4. apply div_ok_nz in E4.
    destruct (computeGrad_ok m g HT HP (weights_len _ _ _ _ _ _ _ E1)) as [gs [_ HG]]. exists g, gs. split; auto. split; auto.
    destruct (integral_values A mu0 shuffle m depth B a HT HP LB LF E4) as [V _]. rewrite (V g gs E1 (weights_len _ _ _ _ _ _ _ E1) HG) in H. injection H as <-. cbn zeta. rewrite px_P, py_P. auto.
  - intros c q H. pose proof H as H'. unfold torque_integral in H'. ib H' g E1. ib H' gs' E2. ib H' F E3. ib H' s E4. apply div_ok_nz in E4.
    destruct (computeGrad_ok m g HT HP (weights_len _ _ _ _ _ _ _ E1)) as [gs [_ HG]]. exists g, gs. split; auto. split; auto.
    destruct (integral_values A mu0 shuffle m depth B a HT HP LB LF E4) as [_ V]. rewrite (V c g gs E1 (weights_len _ _ _ _ _ _ _ E1) HG) in H. injection H as <-. auto.
Qed.
Lemma integrals_defined : forall A mu0 shuffle (m : mesh ROps A) depth B a, Forall (tri_in (length (m_points m))) (m_tris m) -> proper m -> length B = length (m_tris m) ->
  length (as_flags a) = length (m_points m) -> mu0 <> 0 ->
  (is_ok (weights ROps A shuffle (force_K ROps) m B a) -> is_ok (force_integral ROps A mu0 shuffle m depth B a)) /\
  (forall c, is_ok (weights ROps A shuffle (torque_K ROps c) m B a) -> is_ok (torque_integral ROps A mu0 shuffle m depth B a c)).
Proof.
  intros A mu0 shuffle m depth B a HT HP LB LF N0. destruct (integral_values A mu0 shuffle m depth B a HT HP LB LF N0) as [V1 V2]. split.
  - intros [g E]. pose proof (weights_len _ _ _ _ _ _ _ E) as L. destruct (computeGrad_ok m g HT HP L) as [gs [_ HG]]. eexists. apply (V1 g gs E L HG).
  - intros c [g E]. pose proof (weights_len _ _ _ _ _ _ _ E) as L. destruct (computeGrad_ok m g HT HP L) as [gs [_ HG]]. eexists. apply (V2 c g gs E L HG).
Qed.
