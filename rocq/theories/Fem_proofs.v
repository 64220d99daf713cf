(** The assembled matrix and right-hand side in exact arithmetic. *)
From Coq Require Import String.
From Coq Require Import List Arith ZArith NArith Bool Lia Reals Lra Permutation.
From Verif Require Import Base SumR AlgebraModel AlgebraSpec Coo_proofs Csr_proofs System_proofs GeometryModel GeometrySpec DrawingModel DrawingSpec SolversSpec Geometry_proofs MeshModel MeshSpec Adjacency_proofs.
Import ListNotations.
Local Open Scope R_scope.

Section Elem.
Context {A : Type}.
Variable m : mesh ROps A.

(** gradient of the function that is 1 at the corner u of t and 0 at the other two *)
Definition hatx (t : tri) (u : nat) : R :=
  let D := tri_turn m t in
  if Nat.eqb u (t0 t) then (py (pos m (t1 t)) - py (pos m (t2 t))) / D
  else if Nat.eqb u (t1 t) then (py (pos m (t2 t)) - py (pos m (t0 t))) / D
  else if Nat.eqb u (t2 t) then (py (pos m (t0 t)) - py (pos m (t1 t))) / D else 0.
Definition haty (t : tri) (u : nat) : R :=
  let D := tri_turn m t in
  if Nat.eqb u (t0 t) then (px (pos m (t2 t)) - px (pos m (t1 t))) / D
  else if Nat.eqb u (t1 t) then (px (pos m (t0 t)) - px (pos m (t2 t))) / D
  else if Nat.eqb u (t2 t) then (px (pos m (t1 t)) - px (pos m (t0 t))) / D else 0.
(** element matrix *)
Definition kloc (t : tri) (u v : nat) : R := Rabs (tri_turn m t) / 2 * (hatx t u * hatx t v + haty t u * haty t v).
Lemma kloc_sym : forall t u v, kloc t u v = kloc t v u.
Proof. intros; unfold kloc; ring. Qed.

Lemma turn_distinct : forall t, tri_turn m t <> 0 -> t0 t <> t1 t /\ t1 t <> t2 t /\ t2 t <> t0 t.
Proof.
  intros t H. unfold tri_turn, turn in H. repeat split; intros E; rewrite E in H; apply H; ring.
Qed.
Definition is_corner (u : nat) (t : tri) : Prop := u = t0 t \/ u = t1 t \/ u = t2 t.
Lemma hat_off : forall t u, ~ is_corner u t -> hatx t u = 0 /\ haty t u = 0.
Proof.
  intros t u H. unfold hatx, haty. destruct (Nat.eqb_spec u (t0 t)); [exfalso; apply H; left; auto|].
  destruct (Nat.eqb_spec u (t1 t)); [exfalso; apply H; right; auto|]. destruct (Nat.eqb_spec u (t2 t)); [exfalso; apply H; right; auto|]. auto.
Qed.
Lemma kloc_off : forall t u v, ~ is_corner u t -> kloc t u v = 0.
Proof. intros t u v H. unfold kloc. destruct (hat_off t u H) as [-> ->]. ring. Qed.

(** what the loop body computes for the corner i *)
Definition seen_from (t : tri) (i w2 w3 : nat) : Prop :=
  let D := Rabs (tri_turn m t) in
  i <> w2 /\ i <> w3 /\ w2 <> w3 /\ is_corner w2 t /\ is_corner w3 t /\ (forall u, is_corner u t -> u = i \/ u = w2 \/ u = w3) /\
  turn (pos m i) (pos m w2) (pos m w3) = D /\
  (py (pos m w2) - py (pos m w3)) / D = hatx t i /\ (px (pos m w3) - px (pos m w2)) / D = haty t i /\
  (py (pos m w3) - py (pos m i)) / D = hatx t w2 /\ (px (pos m i) - px (pos m w3)) / D = haty t w2 /\
  (py (pos m i) - py (pos m w2)) / D = hatx t w3 /\ (px (pos m w2) - px (pos m i)) / D = haty t w3.

Lemma seen : forall t i, tri_turn m t <> 0 -> is_corner i t -> exists v2 v3, other_corners i t = Ok (v2, v3) /\
  is_corner v2 t /\ is_corner v3 t /\ turn (pos m i) (pos m v2) (pos m v3) = tri_turn m t /\
  (tri_turn m t < 0 -> seen_from t i v3 v2) /\ (0 < tri_turn m t -> seen_from t i v2 v3).
Proof.
  intros t i HD Hi. destruct (turn_distinct t HD) as [N1 [N2 N3]]. unfold other_corners.
  assert (G : forall a b c, (a = t0 t /\ b = t1 t /\ c = t2 t) \/ (a = t1 t /\ b = t2 t /\ c = t0 t) \/ (a = t2 t /\ b = t0 t /\ c = t1 t) ->
    is_corner b t /\ is_corner c t /\ turn (pos m a) (pos m b) (pos m c) = tri_turn m t /\
    (tri_turn m t < 0 -> seen_from t a c b) /\ (0 < tri_turn m t -> seen_from t a b c)).
  { intros a b c H. unfold is_corner, seen_from, tri_turn, hatx, haty, is_corner in *.
    destruct H as [[-> [-> ->]]|[[-> [-> ->]]|[-> [-> ->]]]].
    all: (split; [auto|split; [auto|split; [unfold turn; ring|]]]).
    all: rewrite ?Nat.eqb_refl.
    all: repeat match goal with |- context [Nat.eqb ?a ?b] => replace (Nat.eqb a b) with false by (symmetry; apply Nat.eqb_neq; auto) end.
    all: fold (tri_turn m t) in *.
    all: (split; intros S).
    all: (split; [auto|split; [auto|split; [auto|split; [auto|split; [auto|split; [intros u [->|[->| ->]]; auto|]]]]]]).
    all: (rewrite (Rabs_left _ S) || (rewrite (Rabs_right (tri_turn m t)) by lra)).
    all: (split; [unfold tri_turn, turn; ring|]).
    all: repeat split; field; auto. }
  destruct (Nat.eqb_spec i (t0 t)) as [E|E]; [exists (t1 t), (t2 t); split; [auto|apply G; auto]|].
  destruct (Nat.eqb_spec i (t1 t)) as [E1|E1]; [exists (t2 t), (t0 t); split; [auto|apply G; auto]|].
  destruct (Nat.eqb_spec i (t2 t)) as [E2|E2]; [exists (t0 t), (t1 t); split; [auto|apply G; auto 10]|].
  exfalso. destruct Hi as [Hi|[Hi|Hi]]; auto.
Qed.
End Elem.

Lemma get_pos : forall A (m : mesh ROps A) v, (v < length (m_points m))%nat -> get (m_points m) v = Ok (pos m v).
Proof. intros A m v H. rewrite (get_lt _ (m_points m) v org) by auto. reflexivity. Qed.
Lemma double_pos : forall A (m : mesh ROps A) a b c, (a < length (m_points m))%nat -> (b < length (m_points m))%nat -> (c < length (m_points m))%nat ->
  getDoubleOrientedArea ROps (m_points m) a b c = Ok (turn (pos m a) (pos m b) (pos m c)).
Proof.
  intros A m a b c Ha Hb Hc. unfold getDoubleOrientedArea. rewrite !get_pos by auto. cbn [bind]. f_equal.
  unfold turn, vcross, vminus. cbn. unfold px, py. ring.
Qed.
Lemma Rdiv_ok : forall a b : R, b <> 0 -> div ROps a b = Ok (a / b).
Proof. intros a b H. cbn. unfold Rdivr. destruct (Req_EM_T b 0); [contradiction|auto]. Qed.
Lemma half_ok : div ROps (one ROps) (ofZ ROps 2) = Ok (1 / 2).
Proof. apply Rdiv_ok. cbn. lra. Qed.
Lemma nth_upd : forall X (l : list X) i x a d, (i < length l)%nat -> nth a (upd l i x) d = if Nat.eqb a i then x else nth a l d.
Proof.
  intros X l. induction l as [|y l IH]; intros i x a d H; cbn in H; [lia|]. destruct i as [|i], a as [|a]; cbn; auto.
  apply IH. lia.
Qed.
Lemma In_upd : forall X (l : list X) i x y, In y (upd l i x) -> y = x \/ In y l.
Proof.
  intros X l. induction l as [|z l IH]; intros i x y H; [contradiction|]. destruct i as [|i]; cbn in H; destruct H as [H|H]; auto.
  - right; right; auto.
  - right; left; auto.
  - apply IH in H. destruct H; auto. right; right; auto.
Qed.
Lemma put_in : forall V (l : list (N * V)) k v k' v', In (k', v') (put_key l k v) -> (k' = k /\ v' = v) \/ In (k', v') l.
Proof.
  intros V l k v k' v'. induction l as [|[a w] l IH]; cbn; [intros []|]. destruct (N.eqb_spec a k).
  - intros [H|H]; [inversion H; subst; auto|auto].
  - intros [H|H]; auto. apply IH in H. tauto.
Qed.
Lemma modify_in : forall V (v0 : V) (M M' : coo V) i j f k v, coo_modify v0 M i j f = Ok M' -> In (k, v) (elems M') ->
  In (k, v) (elems M) \/ (k = key i j /\ exists v1, (v1 = v0 \/ In (k, v1) (elems M)) /\ (v = f v1)) \/ (k = key i j /\ v = v0).
Proof.
  intros V v0 M M' i j f k v E H. unfold coo_modify, coo_read, coo_touch in E.
  destruct (Nat.ltb j i); [discriminate|]. destruct (find_key (elems M) (key i j)) as [w|] eqn:F; cbn in E.
  - rewrite F in E. cbn in E. inversion E; subst; clear E. cbn in H. apply put_in in H. destruct H as [[-> ->]|H]; auto.
    right; left. split; auto. exists w. split; auto. right. apply find_key_in; auto.
  - rewrite N.eqb_refl in E. cbn in E. rewrite N.eqb_refl in E. inversion E; subst; clear E. cbn in H. destruct H as [H|H]; auto.
    inversion H; subst. right; left. split; auto. exists v0. auto.
Qed.

Section Run.
Context {A : Type}.
Variable m : mesh ROps A.
Variable V : Type.
Variable v0 : V.
Variable put : R -> nat -> A -> V -> V.
Variable load : R -> A -> V -> res V.
Variable need : bool.
(** the meaning of an entry, the weight of a coefficient, the weight of a load and an invariant of entries *)
Variable phi : V -> R.
Variable w : nat -> A -> R.
Variable ell : A -> R.
Variable Q : V -> Prop.
Hypothesis phi0 : phi v0 = 0.
Hypothesis phi_put : forall c id p v, phi (put c id p v) = phi v + c * w id p.
Hypothesis phi_load : forall D p v, exists v', load D p v = Ok v' /\ phi v' = phi v + D * ell p /\ (Q v -> Q v').
Hypothesis Q0 : Q v0.
Hypothesis Q_put : forall c id p v, (id < length (m_tris m))%nat -> Q v -> Q (put c id p v).

Notation n := (length (m_points m)).
Definition entries_good (M : coo V) : Prop := valid_coo M /\ cm M = n /\ forall k v, In (k, v) (elems M) -> Q v.
(** M' is M with dlt added *)
Definition mat_adds (M M' : coo V) (dlt : nat -> nat -> R) : Prop :=
  entries_good M' /\ (forall i j, touched M i j -> touched M' i j) /\
  forall a b, (a <= b)%nat -> (b < n)%nat -> phi (value v0 M' a b) = phi (value v0 M a b) + dlt a b.

Lemma value_le : forall (M : coo V) a b, (a <= b)%nat -> value v0 M a b = match find_key (elems M) (key a b) with Some v => v | None => v0 end.
Proof. intros M a b H. unfold value. rewrite Nat.min_l, Nat.max_r by auto. reflexivity. Qed.

Hypothesis n_u32 : is_u32 n.
Lemma u32_lt : forall i, (i < n)%nat -> is_u32 i.
Proof. intros i H. unfold is_u32 in *. lia. Qed.

Lemma entry_adds : forall M i v c id p, entries_good M -> (i < n)%nat -> (v < n)%nat -> (id < length (m_tris m))%nat ->
  exists M', (if Nat.leb i v then coo_modify v0 M i v (put c id p) else Ok M) = Ok M' /\
    ((i <= v)%nat -> touched M' i v) /\ mat_adds M M' (fun a b => if Nat.eqb a i then (if Nat.eqb b v then c * w id p else 0) else 0).
Proof.
  intros M i v c id p HM Hi Hv Hid. destruct (Nat.leb_spec i v) as [L|L].
  - destruct (coo_modify_spec v0 M i v (put c id p)) as [[L' _]|[_ [M' [E [Hm [F [O [ND I]]]]]]]]; [lia|].
    exists M'. split; auto. split; [intros _; apply I; auto|]. destruct HM as [[HN HK] [Hc HQ]].
    split; [split; [split; auto|split]|split].
    + intros k x Hk. apply (in_map fst) in Hk. apply I in Hk. cbn in Hk. destruct Hk as [->|Hk].
      * exists i, v. rewrite Hm. repeat split; auto. lia.
      * apply in_map_iff in Hk. destruct Hk as [[k' x'] [<- Hk]]. rewrite Hm. eapply HK; eauto.
    + congruence.
    + intros k x Hk. destruct (modify_in _ _ _ _ _ _ _ _ _ E Hk) as [H|[[_ [v1 [[->|H] ->]]]|[_ ->]]]; eauto.
    + intros a b Hab. apply I. auto.
    + intros a b Hab Hb. rewrite !value_le by auto.
      destruct (N.eq_dec (key a b) (key i v)) as [K|K].
      * apply key_inj in K; try (apply u32_lt; lia). destruct K as [-> ->]. rewrite F, !Nat.eqb_refl. apply phi_put.
      * rewrite O by auto. destruct (Nat.eqb_spec a i); [|ring]. destruct (Nat.eqb_spec b v); [|ring]. subst. contradiction.
  - exists M. split; auto. split; [lia|]. split; [auto|split; [auto|]].
    intros a b Hab Hb. destruct (Nat.eqb_spec a i); [|ring]. destruct (Nat.eqb_spec b v); [|ring]. lia.
Qed.
Lemma mat_trans : forall M1 M2 M3 d1 d2, mat_adds M1 M2 d1 -> mat_adds M2 M3 d2 -> mat_adds M1 M3 (fun a b => d1 a b + d2 a b).
Proof.
  intros M1 M2 M3 d1 d2 [G1 [T1 V1]] [G2 [T2 V2]]. split; auto. split; [auto|].
  intros a b Hab Hb. rewrite V2, V1 by auto. ring.
Qed.
Lemma mat_ext : forall M M' d d', (forall a b, (a <= b)%nat -> (b < n)%nat -> d a b = d' a b) -> mat_adds M M' d -> mat_adds M M' d'.
Proof. intros M M' d d' H [G [T0 V0]]. split; auto. split; auto. intros a b Hab Hb. rewrite V0, H by auto. ring. Qed.

Definition sys_good (S : system V) : Prop := entries_good (sA V S) /\ length (sb V S) = n /\ Forall Q (sb V S).
Definition vec_adds (b b' : list V) (dl : nat -> R) : Prop :=
  length b' = n /\ Forall Q b' /\ forall a, (a < n)%nat -> phi (nth a b' v0) = phi (nth a b v0) + dl a.
Definition sys_adds (S S' : system V) (dlt : nat -> nat -> R) (dl : nat -> R) : Prop :=
  mat_adds (sA V S) (sA V S') dlt /\ vec_adds (sb V S) (sb V S') dl.
Lemma sys_adds_good : forall S S' d e, sys_adds S S' d e -> sys_good S'.
Proof. intros S S' d e [[G _] [L [F _]]]. split; auto. Qed.
Lemma sys_adds_refl : forall S, sys_good S -> sys_adds S S (fun _ _ => 0) (fun _ => 0).
Proof. intros S [G [L F]]. split; [split; auto; split; auto; intros; ring|]. split; auto. split; auto. intros; ring. Qed.
Lemma sys_trans : forall S1 S2 S3 d1 d2 e1 e2, sys_adds S1 S2 d1 e1 -> sys_adds S2 S3 d2 e2 ->
  sys_adds S1 S3 (fun a b => d1 a b + d2 a b) (fun a => e1 a + e2 a).
Proof.
  intros S1 S2 S3 d1 d2 e1 e2 [M1 [L1 [F1 V1]]] [M2 [L2 [F2 V2]]]. split; [eapply mat_trans; eauto|].
  split; auto. split; auto. intros a Ha. rewrite V2, V1 by auto. ring.
Qed.
Lemma sys_ext : forall S S' d d' e e', (forall a b, (a <= b)%nat -> (b < n)%nat -> d a b = d' a b) -> (forall a, (a < n)%nat -> e a = e' a) ->
  sys_adds S S' d e -> sys_adds S S' d' e'.
Proof. intros S S' d d' e e' H K [M [L [F V']]]. split; [eapply mat_ext; eauto|]. split; auto. split; auto. intros a Ha. rewrite V', K by auto. ring. Qed.

Hypothesis shape : Forall (tri_in n) (m_tris m).
Hypothesis prop : proper m.

Lemma elem_run : forall i id p t S, sys_good S -> nth_error (m_tris m) id = Some t -> is_corner i t ->
  exists S', assemble_elem ROps A V v0 put load m i (id, p) S = Ok S' /\ touched (sA V S') i i /\
    sys_adds S S' (fun a b => if Nat.eqb a i then kloc m t i b * w id p else 0) (fun a => if Nat.eqb a i then Rabs (tri_turn m t) * ell p else 0).
Proof.
  intros i id p t S HS Ht Hi. pose proof HS as [HM [HL HF]].
  assert (HD : tri_turn m t <> 0). { unfold proper in prop. rewrite Forall_forall in prop. apply prop. eapply nth_error_In; eauto. }
  assert (HT : tri_in n t). { rewrite Forall_forall in shape. apply shape. eapply nth_error_In; eauto. }
  assert (Hid : (id < length (m_tris m))%nat) by (apply nth_error_Some; congruence).
  assert (CN : forall u, is_corner u t -> (u < n)%nat). { destruct HT as [X [Y Z]]. intros u [->|[->| ->]]; auto. }
  unfold assemble_elem. unfold get at 1. rewrite Ht. cbn [bind].
  destruct (seen m t i HD Hi) as [v2 [v3 [-> [C2 [C3 [HT2 [HS1 HS2]]]]]]]. cbn [bind].
  rewrite double_pos by auto. cbn [bind]. rewrite HT2.
  assert (W : exists w2 w3, (if ltb ROps (tri_turn m t) (zero ROps) then (v3, v2) else (v2, v3)) = (w2, w3) /\ seen_from m t i w2 w3).
  { cbn. unfold Rltb. destruct (Rlt_dec (tri_turn m t) 0); eexists; eexists; split; eauto. apply HS2. lra. }
  destruct W as [w2 [w3 [-> [N1 [N2 [N3 [W2 [W3 [WA [WD [E1 [E2 [E3 [E4 [E5 E6]]]]]]]]]]]]]]].
  rewrite double_pos by auto. cbn [bind]. rewrite WD. rewrite !get_pos by auto. cbn [bind].
  assert (HA : Rabs (tri_turn m t) <> 0) by (apply Rabs_no_R0; auto).
  rewrite !Rdiv_ok by exact HA. cbn [bind].
  change (sub ROps) with Rminus. change (@vx ROps) with px. change (@vy ROps) with py.
  rewrite E1, E2, E3, E4, E5, E6. rewrite half_ok. cbn [bind].
  change (mul ROps) with Rmult. change (add ROps) with Rplus. change (T ROps) with R.
  set (K := fun v => kloc m t i v).
  assert (EK : forall v, Rabs (tri_turn m t) * (hatx m t v * hatx m t i + haty m t v * haty m t i) * (1 / 2) = K v).
  { intros v. unfold K, kloc. field. }
  rewrite !EK.
  destruct (entry_adds (sA V S) i i (K i) id p HM (CN _ Hi) (CN _ Hi) Hid) as [M1 [-> [T1 A1]]]. cbn [bind].
  destruct (entry_adds M1 i w2 (K w2) id p (proj1 A1) (CN _ Hi) (CN _ W2) Hid) as [M2 [-> [_ A2]]]. cbn [bind].
  destruct (entry_adds M2 i w3 (K w3) id p (proj1 A2) (CN _ Hi) (CN _ W3) Hid) as [M3 [-> [_ A3]]]. cbn [bind].
  assert (Hlt : (i < length (sb V S))%nat) by (rewrite HL; apply CN; auto).
  rewrite (get_lt _ (sb V S) i v0) by auto. cbn [bind].
  destruct (phi_load (Rabs (tri_turn m t)) p (nth i (sb V S) v0)) as [b' [-> [PB QB]]]. cbn [bind].
  rewrite set_lt by auto. cbn [bind]. eexists. split; [reflexivity|]. split.
  { cbn. apply (proj1 (proj2 A3)), (proj1 (proj2 A2)), T1. auto. }
  split; cbn [sA sb].
  - eapply mat_ext; [|eapply mat_trans; [exact A1|eapply mat_trans; [exact A2|exact A3]]].
    intros a b Hab Hb. cbn beta. destruct (Nat.eqb_spec a i); [|ring].
    destruct (Nat.eqb_spec b i) as [->|B1].
    { destruct (Nat.eqb_spec i w2); [contradiction|]. destruct (Nat.eqb_spec i w3); [contradiction|]. unfold K. ring. }
    destruct (Nat.eqb_spec b w2) as [->|B2]; [destruct (Nat.eqb_spec w2 w3); [contradiction|]; unfold K; ring|].
    destruct (Nat.eqb_spec b w3) as [->|B3]; [unfold K; ring|].
    unfold K. rewrite (kloc_sym m t i b), kloc_off; [ring|]. intros HC. apply WA in HC. tauto.
  - split; [rewrite upd_length; auto|]. split.
    + rewrite Forall_forall in *. intros x Hx. apply In_upd in Hx. destruct Hx as [->|Hx]; auto.
      apply QB. apply HF. apply nth_In. auto.
    + intros a Ha. rewrite nth_upd by auto. destruct (Nat.eqb_spec a i); [subst; apply PB|ring].
Qed.

Definition ptr (id : nat) : tri := nth id (m_tris m) (O, O, O).
Lemma row_run : forall i es S, sys_good S -> (forall e, In e es -> (fst e < length (m_tris m))%nat /\ is_corner i (ptr (fst e))) ->
  exists S', forM_list es (assemble_elem ROps A V v0 put load m i) S = Ok S' /\ ((0 < length es)%nat -> touched (sA V S') i i) /\
    sys_adds S S' (fun a b => if Nat.eqb a i then suml es (fun e => kloc m (ptr (fst e)) i b * w (fst e) (snd e)) else 0)
                  (fun a => if Nat.eqb a i then suml es (fun e => Rabs (tri_turn m (ptr (fst e))) * ell (snd e)) else 0).
Proof.
  intros i es. induction es as [|[id p] es IH]; intros S HS He; cbn [forM_list].
  - exists S. split; auto. split; [cbn; lia|]. eapply sys_ext; [| |apply sys_adds_refl; auto].
    + intros a b _ _. destruct (Nat.eqb a i); reflexivity.
    + intros a _. destruct (Nat.eqb a i); reflexivity.
  - destruct (He (id, p)) as [H1 H2]; [cbn; auto|]. cbn [fst snd] in *.
    destruct (elem_run i id p (ptr id) S HS (nth_error_nth' _ _ H1) H2) as [S1 [-> [T1 A1]]]. cbn [bind].
    destruct (IH S1 (sys_adds_good _ _ _ _ A1)) as [S2 [-> [T2 A2]]]; [intros; apply He; cbn; auto|].
    exists S2. split; auto. split; [intros _; apply (proj1 A2); auto|].
    eapply sys_ext; [| |eapply sys_trans; [exact A1|exact A2]].
    + intros a b _ _. cbn beta. destruct (Nat.eqb a i); [reflexivity|ring].
    + intros a _. cbn beta. destruct (Nat.eqb a i); [reflexivity|ring].
Qed.

Lemma vertices_run : forall tb, length tb = n -> (need = true -> forall v, (v < n)%nat -> (0 < length (trow tb v))%nat) ->
  (forall v e, In e (trow tb v) -> (fst e < length (m_tris m))%nat /\ is_corner v (ptr (fst e))) ->
  forall k a S, (a + k <= n)%nat -> sys_good S ->
  exists S', forM_from k a (assemble_vertex ROps A V v0 put load need m tb) S = Ok S' /\
    (forall i, (a <= i < a + k)%nat -> (0 < length (trow tb i))%nat -> touched (sA V S') i i) /\
    sys_adds S S' (fun u v => if Nat.leb a u && Nat.ltb u (a + k) then suml (trow tb u) (fun e => kloc m (ptr (fst e)) u v * w (fst e) (snd e)) else 0)
                  (fun u => if Nat.leb a u && Nat.ltb u (a + k) then suml (trow tb u) (fun e => Rabs (tri_turn m (ptr (fst e))) * ell (snd e)) else 0).
Proof.
  intros tb Hn Hneed He k. induction k as [|k IH]; intros a S Hk HS; cbn [forM_from].
  - exists S. split; auto. split; [lia|]. eapply sys_ext; [| |apply sys_adds_refl; auto].
    + intros u v _ _. cbn beta. destruct (Nat.leb_spec a u), (Nat.ltb_spec u (a + 0)); cbn; auto; lia.
    + intros u _. cbn beta. destruct (Nat.leb_spec a u), (Nat.ltb_spec u (a + 0)); cbn; auto; lia.
  - unfold assemble_vertex at 1. rewrite get_row by lia. cbn [bind].
    assert (EN : need && Nat.eqb (length (trow tb a)) 0 = false).
    { destruct need; cbn; auto. specialize (Hneed eq_refl a ltac:(lia)). apply Nat.eqb_neq. lia. }
    rewrite EN.
    destruct (row_run a (trow tb a) S HS (He a)) as [S1 [-> [T1 A1]]]. cbn [bind].
    destruct (IH (Datatypes.S a) S1 ltac:(lia) (sys_adds_good _ _ _ _ A1)) as [S2 [-> [T2 A2]]].
    exists S2. split; auto. split.
    + intros i Hi Hl. destruct (Nat.eq_dec i a) as [->|D]; [apply (proj1 A2); auto|apply T2; auto; lia].
    + eapply sys_ext; [| |eapply sys_trans; [exact A1|exact A2]].
      * intros u v _ _. cbn beta. destruct (Nat.eqb_spec u a) as [->|D].
        -- replace (Nat.leb a a && Nat.ltb a (a + Datatypes.S k)) with true by (symmetry; apply andb_true_iff; split; [apply Nat.leb_le|apply Nat.ltb_lt]; lia).
           replace (Nat.leb (Datatypes.S a) a && Nat.ltb a (Datatypes.S a + k)) with false by (symmetry; apply andb_false_iff; left; apply Nat.leb_gt; lia). ring.
        -- replace (Nat.leb a u && Nat.ltb u (a + Datatypes.S k)) with (Nat.leb (Datatypes.S a) u && Nat.ltb u (Datatypes.S a + k)); [ring|].
           f_equal; [destruct (Nat.leb_spec (Datatypes.S a) u), (Nat.leb_spec a u); auto; lia|f_equal; lia].
      * intros u _. cbn beta. destruct (Nat.eqb_spec u a) as [->|D].
        -- replace (Nat.leb a a && Nat.ltb a (a + Datatypes.S k)) with true by (symmetry; apply andb_true_iff; split; [apply Nat.leb_le|apply Nat.ltb_lt]; lia).
           replace (Nat.leb (Datatypes.S a) a && Nat.ltb a (Datatypes.S a + k)) with false by (symmetry; apply andb_false_iff; left; apply Nat.leb_gt; lia). ring.
        -- replace (Nat.leb a u && Nat.ltb u (a + Datatypes.S k)) with (Nat.leb (Datatypes.S a) u && Nat.ltb u (Datatypes.S a + k)); [ring|].
           f_equal; [destruct (Nat.leb_spec (Datatypes.S a) u), (Nat.leb_spec a u); auto; lia|f_equal; lia].
Qed.
End Run.

Lemma F2_length : forall X Y (P : X -> Y -> Prop) l l', Forall2 P l l' -> length l = length l'.
Proof. intros X Y P l l' H. induction H; cbn; auto. Qed.
(** ** What the adjacency tables contain *)
Section Adj.
Context {o : Ops} {A : Type}.
Variable m : mesh o A.
Lemma push_corners_in : forall i a p vs tb, Forall (fun v => (v < length tb)%nat) vs -> nth_error (m_attrs m) i = Some a ->
  nth_error (region_map (m_drawing m)) a = Some p -> (forall v, (length (trow tb v) + count v vs <= 18)%nat) ->
  exists tb', forM_list vs (push_one o A m i) tb = Ok tb' /\ length tb' = length tb /\ forall v, trow tb' v = trow tb v ++ repeat (i, p) (count v vs).
Proof.
  intros i a p vs. induction vs as [|v vs IH]; intros tb Hv Ha Hp Hc; cbn [forM_list].
  - exists tb. repeat split; auto. intros v. cbn. rewrite app_nil_r. auto.
  - inversion Hv as [|? ? H1 H2]; subst. rewrite (push_one_spec o A m i v tb a) by auto. rewrite Hp.
    assert (L : (length (trow tb v) < 18)%nat). { specialize (Hc v). rewrite count_cons, Nat.eqb_refl in Hc. lia. }
    destruct (Nat.leb_spec 18 (length (trow tb v))); [lia|]. cbn [bind].
    set (tb1 := upd tb v (trow tb v ++ [(i, p)])).
    assert (L1 : length tb1 = length tb) by apply upd_length.
    assert (R1 : forall u, trow tb1 u = trow tb u ++ repeat (i, p) (if Nat.eqb v u then 1 else 0)).
    { intros u. unfold tb1. rewrite trow_upd by auto. destruct (Nat.eqb_spec v u); [subst; auto|cbn; rewrite app_nil_r; auto]. }
    destruct (IH tb1) as [tb' [E [L2 R2]]]; auto.
    + rewrite L1; auto.
    + intros u. rewrite R1, app_length, repeat_length. specialize (Hc u). rewrite count_cons in Hc. lia.
    + exists tb'. split; auto. split; [lia|]. intros u. rewrite R2, R1, count_cons, repeat_app, app_assoc. reflexivity.
Qed.
Fixpoint incid (v : nat) (l : list (tri * A)) (i : nat) : list (nat * A) :=
  match l with
  | [] => []
  | (t, p) :: l' => repeat (i, p) (count v (corners t)) ++ incid v l' (S i)
  end.
Lemma skipn_nth : forall X (l : list X) i x l', skipn i l = x :: l' -> nth_error l i = Some x /\ skipn (S i) l = l'.
Proof.
  intros X l. induction l as [|y l IH]; intros [|i] x l' H; cbn in *; try discriminate H.
  - inversion H; subst; auto.
  - apply IH in H. auto.
Qed.
Lemma push_tris_in : forall l ps i tb, Forall (tri_in (length tb)) l ->
  Forall2 (fun a p => nth_error (region_map (m_drawing m)) a = Some p) (skipn i (m_attrs m)) ps -> length ps = length l ->
  (forall v, (length (trow tb v) + degree l v <= 18)%nat) ->
  exists tb', push_tris o A m l i tb = Ok tb' /\ length tb' = length tb /\ forall v, trow tb' v = trow tb v ++ incid v (combine l ps) i.
Proof.
  intros l. induction l as [|t l IH]; intros ps i tb Hl HP HL Hc; cbn [push_tris].
  - exists tb. repeat split; auto. intros v. cbn. rewrite app_nil_r. auto.
  - destruct ps as [|p ps]; [discriminate HL|]. inversion HP as [|a ? as' ? Ha Hps E]; subst.
    symmetry in E. apply skipn_nth in E. destruct E as [Ea Es]. inversion Hl as [|? ? H1 H2]; subst.
    destruct (push_corners_in i a p (corners t) tb) as [tb1 [E1 [L1 R1]]]; auto.
    + destruct H1 as [X [Y Z]]. unfold corners. repeat (apply Forall_cons; auto).
    + intros v. specialize (Hc v). rewrite degree_cons in Hc. lia.
    + change (push_tri o A m i t tb) with (forM_list (corners t) (push_one o A m i) tb). rewrite E1. cbn [bind].
      destruct (IH ps (S i) tb1) as [tb2 [E2 [L2 R2]]]; auto.
      * rewrite L1; auto.
      * intros v. rewrite R1, app_length, repeat_length. specialize (Hc v). rewrite degree_cons in Hc. lia.
      * exists tb2. split; auto. split; [lia|]. intros v. rewrite R2, R1. cbn [combine incid]. rewrite app_assoc. reflexivity.
Qed.
Lemma adjacency_in : forall ps, well_shaped m -> properties m ps -> (forall v, (degree (m_tris m) v <= 18)%nat) ->
  exists tb, adjacency o A m = Ok tb /\ length tb = length (m_points m) /\ forall v, trow tb v = incid v (combine (m_tris m) ps) 0.
Proof.
  intros ps [H1 [H2 H3]] HP Hd. unfold adjacency.
  destruct (push_tris_in (m_tris m) ps 0 (repeat [] (length (m_points m)))) as [tb [E [L R]]]; auto.
  - rewrite repeat_length. auto.
  - rewrite <- (F2_length _ _ _ _ _ HP). auto.
  - intros v. rewrite trow_empty. cbn. auto.
  - exists tb. split; auto. rewrite repeat_length in L. split; auto. intros v. rewrite R, trow_empty. reflexivity.
Qed.
Lemma incid_length : forall v l i, length (incid v l i) = degree (map fst l) v.
Proof.
  intros v l. induction l as [|[t p] l IH]; intros i; cbn [incid map fst]; auto.
  rewrite app_length, repeat_length, IH, degree_cons. auto.
Qed.
Lemma incid_in : forall v l i e, In e (incid v l i) -> (i <= fst e)%nat /\ exists t, nth_error l (fst e - i) = Some (t, snd e) /\ (0 < count v (corners t))%nat.
Proof.
  intros v l. induction l as [|[t p] l IH]; intros i e H; [destruct H|]. cbn in H. apply in_app_or in H. destruct H as [H|H].
  - assert (count v (corners t) <> 0)%nat. { intros E. unfold count in *. cbn in H, E. rewrite E in H. destruct H. }
    apply repeat_spec in H. subst. cbn. split; auto. exists t. rewrite Nat.sub_diag. cbn. split; auto. cbn in H0. lia.
  - apply IH in H. destruct H as [H [u [H1 H2]]]. split; [lia|]. exists u. split; auto.
    replace (fst e - i)%nat with (S (fst e - S i)) by lia. exact H1.
Qed.
End Adj.
Lemma suml_cons : forall X (x : X) l f, suml (x :: l) f = f x + suml l f.
Proof. reflexivity. Qed.
Lemma suml_repeat : forall X (x : X) n f, suml (repeat x n) f = INR n * f x.
Proof. intros X x n f. induction n as [|n IH]; [cbn; ring|]. cbn [repeat]. rewrite suml_cons, IH, S_INR. ring. Qed.
Lemma count_corner : forall A (m : mesh ROps A) t v, tri_turn m t <> 0 -> (is_corner v t /\ count v (corners t) = 1%nat) \/ (~ is_corner v t /\ count v (corners t) = O).
Proof.
  intros A m t v H. apply turn_distinct in H. destruct H as [N1 [N2 N3]]. unfold corners, is_corner. rewrite !count_cons. cbn [count filter length].
  destruct (Nat.eqb_spec (t0 t) v), (Nat.eqb_spec (t1 t) v), (Nat.eqb_spec (t2 t) v); subst; try congruence; try (left; split; [tauto|reflexivity]).
  right. split; [|reflexivity]. intros [E|[E|E]]; congruence.
Qed.
(** triangle numbers, triangles and properties *)
Definition elements {A} (m : mesh ROps A) (ps : list A) : list (nat * (tri * A)) :=
  combine (seq 0 (length (m_tris m))) (combine (m_tris m) ps).
Definition on_corner (v : nat) (t : tri) (x : R) : R := if Nat.ltb 0 (count v (corners t)) then x else 0.
Lemma suml_incid : forall A (m : mesh ROps A) v (l : list (tri * A)) i (f : nat * A -> R), Forall (fun tp => tri_turn m (fst tp) <> 0) l ->
  suml (incid v l i) f = suml (combine (seq i (length l)) l) (fun x => on_corner v (fst (snd x)) (f (fst x, snd (snd x)))).
Proof.
  intros A m v l. induction l as [|[t p] l IH]; intros i f H; [reflexivity|]. inversion H as [|? ? H1 H2]; subst. cbn [fst] in H1.
  cbn [incid length seq combine]. rewrite suml_cons. cbn [fst snd]. rewrite suml_app, suml_repeat, IH by auto. f_equal. unfold on_corner.
  destruct (count_corner A m t v H1) as [[_ ->]|[_ ->]]; cbn; ring.
Qed.
Lemma elements_in : forall A (m : mesh ROps A) ps x, In x (elements m ps) -> nth_error (m_tris m) (fst x) = Some (fst (snd x)).
Proof.
  intros A m ps x H. unfold elements in H.
  assert (G : forall (l : list tri) (ps : list A) i y, In y (combine (seq i (length l)) (combine l ps)) -> (i <= fst y)%nat /\ nth_error l (fst y - i) = Some (fst (snd y))).
  { clear. induction l as [|t l IH]; intros ps i y H; [destruct H|]. destruct ps as [|p ps]; [destruct H|]. cbn in H. destruct H as [<-|H].
    - cbn. rewrite Nat.sub_diag. auto.
    - apply IH in H. destruct H as [H1 H2]. split; [lia|]. replace (fst y - i)%nat with (S (fst y - S i)) by lia. exact H2. }
  apply G in H. rewrite Nat.sub_0_r in H. tauto.
Qed.

Lemma combine_nth_error : forall X Y (l : list X) (l' : list Y) i x y, nth_error (combine l l') i = Some (x, y) -> nth_error l i = Some x.
Proof.
  intros X Y l. induction l as [|a l IH]; intros [|b l'] [|i] x y H; cbn in *; try discriminate H.
  - inversion H; auto.
  - eapply IH; eauto.
Qed.
Lemma combine_fst : forall X Y (l : list X) (l' : list Y), length l' = length l -> map fst (combine l l') = l.
Proof. intros X Y l. induction l as [|a l IH]; intros [|b l'] H; cbn in *; try discriminate H; auto. rewrite IH by auto. auto. Qed.
Lemma combine_forall : forall X Y (P : X -> Prop) (l : list X) (l' : list Y), Forall P l -> Forall (fun x => P (fst x)) (combine l l').
Proof. intros X Y P l l' H. revert l'. induction H; intros [|b l']; cbn; constructor; auto. Qed.

Section Total.
Context {A : Type}.
Variable m : mesh ROps A.
Variable ps : list A.
Variable V : Type.
Variable v0 : V.
Variable put : R -> nat -> A -> V -> V.
Variable load : R -> A -> V -> res V.
Variable need : bool.
Variable phi : V -> R.
Variable w : nat -> A -> R.
Variable ell : A -> R.
Variable Q : V -> Prop.
Hypothesis phi0 : phi v0 = 0.
Hypothesis phi_put : forall c id p v, phi (put c id p v) = phi v + c * w id p.
Hypothesis phi_load : forall D p v, exists v', load D p v = Ok v' /\ phi v' = phi v + D * ell p /\ (Q v -> Q v').
Hypothesis Q0 : Q v0.
Hypothesis Q_put : forall c id p v, (id < length (m_tris m))%nat -> Q v -> Q (put c id p v).
Hypothesis ready : fem_ready m ps.
Hypothesis used : need = true -> all_used m.
Notation n := (length (m_points m)).

Lemma assemble_val : exists S, assemble ROps A V v0 put load need m = Ok S /\ valid_system S /\ length (sb V S) = n /\
  (forall k v, In (k, v) (elems (sA V S)) -> Q v) /\ Forall Q (sb V S) /\
  (all_used m -> all_diag_touched (sA V S)) /\
  (forall a b, (a < n)%nat -> (b < n)%nat -> phi (value v0 (sA V S) a b) =
     suml (elements m ps) (fun x => kloc m (fst (snd x)) a b * w (fst x) (snd (snd x)))) /\
  (forall a, (a < n)%nat -> phi (nth a (sb V S) v0) =
     suml (elements m ps) (fun x => on_corner a (fst (snd x)) (Rabs (tri_turn m (fst (snd x))) * ell (snd (snd x))))).
Proof.
  destruct ready as [WS [HP [Hd Hp]]]. pose proof WS as [W1 [W2 W3]].
  destruct (adjacency_in m ps WS HP Hd) as [tb [E [L R]]]. unfold assemble. rewrite E. cbn [bind].
  assert (LP : length ps = length (m_tris m)) by (rewrite <- (F2_length _ _ _ _ _ HP); auto).
  assert (DG : forall v, length (trow tb v) = degree (m_tris m) v). { intros v. rewrite R, incid_length, combine_fst by auto. auto. }
  set (S0 := mkSys V (coo_new V n) (repeat v0 n)).
  assert (G0 : sys_good m V Q S0).
  { split; [split; [split; [constructor|intros k v []]|split; [reflexivity|intros k v []]]|].
    cbn. rewrite repeat_length. split; auto. rewrite Forall_forall. intros x Hx. apply repeat_spec in Hx. subst; auto. }
  assert (HE : forall v e, In e (trow tb v) -> (fst e < length (m_tris m))%nat /\ is_corner v (ptr m (fst e))).
  { intros v e H. rewrite R in H. apply incid_in in H. destruct H as [_ [t [H1 H2]]]. rewrite Nat.sub_0_r in H1.
    apply combine_nth_error in H1. split; [apply nth_error_Some; congruence|].
    unfold ptr. rewrite (nth_error_nth _ _ _ H1). unfold proper in Hp. rewrite Forall_forall in Hp.
    destruct (count_corner A m t v) as [[H _]|[_ H]]; auto; [apply Hp; eapply nth_error_In; eauto|lia]. }
  assert (HN : need = true -> forall v, (v < n)%nat -> (0 < length (trow tb v))%nat).
  { intros U v Hv. rewrite DG. apply used; auto. }
  destruct (vertices_run m V v0 put load need phi w ell Q phi_put phi_load Q0 Q_put W3 W1 Hp tb L HN HE n O S0 ltac:(lia) G0) as [S [ES [T1 [[G [_ VM]] [LB [QB VB]]]]]].
  unfold forM_up. change (T ROps) with R in *. exists S.
  destruct G as [G1 [G2 G3]].
  assert (FP : Forall (fun tp : tri * A => tri_turn m (fst tp) <> 0) (combine (m_tris m) ps)) by (apply (combine_forall _ _ _ _ _ Hp)).
  assert (LC : length (combine (m_tris m) ps) = length (m_tris m)) by (rewrite combine_length; lia).
  split; [exact ES|]. split; [split; auto; split; [congruence|rewrite LB; auto]|]. split; auto. split; auto. split; auto.
  split.
  { intros U i Hi. rewrite G2 in Hi. apply T1; [lia|]. rewrite DG. apply U; auto. }
  assert (VU : forall a b, (a <= b)%nat -> (b < n)%nat -> phi (value v0 (sA V S) a b) =
     suml (elements m ps) (fun x => kloc m (fst (snd x)) a b * w (fst x) (snd (snd x)))).
  { intros a b Hab Hb. rewrite VM by auto. cbn [S0 sA]. rewrite (value_le V v0 (coo_new V n) a b) by auto. cbn [coo_new elems find_key]. rewrite phi0.
    replace (Nat.leb 0 a && Nat.ltb a (0 + n)) with true by (symmetry; apply andb_true_iff; split; [apply Nat.leb_le|apply Nat.ltb_lt]; lia).
    rewrite Rplus_0_l, R, (suml_incid A m) by auto. rewrite LC. apply suml_ext. intros x Hx. pose proof (elements_in A m ps x Hx) as Ht.
    cbn [fst snd]. unfold ptr. rewrite (nth_error_nth _ _ _ Ht). unfold on_corner.
    destruct (count_corner A m (fst (snd x)) a) as [[C ->]|[C ->]].
    - unfold proper in Hp. rewrite Forall_forall in Hp. apply Hp. eapply nth_error_In; eauto.
    - reflexivity.
    - cbn. rewrite kloc_off by auto. ring. }
  split.
  - intros a b Ha Hb. destruct (Nat.le_ge_cases a b) as [H|H]; auto.
    replace (value v0 (sA V S) a b) with (value v0 (sA V S) b a) by (unfold value; rewrite Nat.min_comm, Nat.max_comm; auto).
    rewrite VU by auto. apply suml_ext. intros x _. rewrite kloc_sym. auto.
  - intros a Ha. rewrite VB by auto. cbn [S0 sb]. rewrite nth_repeat, phi0.
    replace (Nat.leb 0 a && Nat.ltb a (0 + n)) with true by (symmetry; apply andb_true_iff; split; [apply Nat.leb_le|apply Nat.ltb_lt]; lia).
    rewrite Rplus_0_l, R, (suml_incid A m) by auto. rewrite LC. apply suml_ext. intros x Hx. pose proof (elements_in A m ps x Hx) as Ht.
    cbn [fst snd]. unfold ptr. rewrite (nth_error_nth _ _ _ Ht). reflexivity.
Qed.
End Total.
