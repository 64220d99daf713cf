(** The physics of the voltages that the assembled system defines. *)
From Coq Require Import String.
From Coq Require Import List Arith ZArith NArith Bool Lia Reals Lra Permutation.
From Verif Require Import Base SumR AlgebraModel AlgebraSpec Coo_proofs Algebra_bridge GeometryModel GeometrySpec Geometry_proofs DrawingModel DrawingSpec
  MeshModel MeshSpec Adjacency_proofs Fem_proofs Energy_proofs MeshGeo_proofs LayersModel LayersSpec Voltage_proofs Wellposed_proofs CotSpec Cot_proofs ForceSpec Edges_proofs PhysSpec.
Import ListNotations.
Local Open Scope R_scope.

(** ** symmetric forms *)
Section Form.
Variable n : nat.
Variable K : nat -> nat -> R.
Hypothesis Ksym : forall i j, K i j = K j i.
Definition act (x : nat -> R) (i : nat) : R := sumn n (fun j => K i j * x j).
Lemma quad_act : forall x, quad n K x = sumn n (fun i => x i * act x i).
Proof using. intros x. unfold quad, act. apply sumn_ext. intros i _. rewrite <- sumn_scal. apply sumn_ext. intros. ring. Qed.
Lemma act_sym : forall x z, sumn n (fun i => z i * act x i) = sumn n (fun i => x i * act z i).
Proof using Ksym.
  intros x z. unfold act. rewrite (sumn_ext n _ (fun i => sumn n (fun j => z i * K i j * x j))) by (intros; rewrite <- sumn_scal; apply sumn_ext; intros; ring).
  rewrite sumn_exchange. apply sumn_ext. intros i _. rewrite <- sumn_scal. apply sumn_ext. intros j _. rewrite (Ksym i j). ring.
Qed.
Lemma act_lin : forall a b x y i, act (fun v => a * x v + b * y v) i = a * act x i + b * act y i.
Proof using. intros. unfold act. rewrite <- !sumn_scal, <- sumn_plus. apply sumn_ext. intros. ring. Qed.
Lemma act_ext : forall x y i, (forall v, (v < n)%nat -> x v = y v) -> act x i = act y i.
Proof using. intros. unfold act. apply sumn_ext. intros. rewrite H; auto. Qed.
Lemma quad_ext : forall x y, (forall v, (v < n)%nat -> x v = y v) -> quad n K x = quad n K y.
Proof using. intros. rewrite !quad_act. apply sumn_ext. intros. rewrite H by auto. rewrite (act_ext x y); auto. Qed.
Lemma quad_add : forall x z, quad n K (fun v => x v + z v) = quad n K x + 2 * sumn n (fun i => z i * act x i) + quad n K z.
Proof using Ksym.
  intros x z. rewrite !quad_act.
  rewrite (sumn_ext n (fun i => (x i + z i) * act (fun v => x v + z v) i) (fun i => (x i * act x i + z i * act x i) + (x i * act z i + z i * act z i))).
  - rewrite !sumn_plus, (act_sym z x). ring.
  - intros i _. rewrite (act_ext _ (fun v => 1 * x v + 1 * z v)) by (intros; ring). rewrite act_lin. ring.
Qed.
Lemma quad_scal : forall c x, quad n K (fun v => c * x v) = c * c * quad n K x.
Proof using. intros c x. unfold quad. rewrite <- sumn_scal. apply sumn_ext. intros. rewrite <- sumn_scal. apply sumn_ext. intros. ring. Qed.
(** x is balanced off ids and z vanishes on ids: the cross term is zero *)
Lemma cross_zero : forall ids x z, (forall i, (i < n)%nat -> ~ In i ids -> act x i = 0) -> (forall i, In i ids -> z i = 0) -> sumn n (fun i => z i * act x i) = 0.
Proof using. intros ids x z B Z. apply sumn_0. intros i Hi. destruct (in_dec Nat.eq_dec i ids) as [I|I]; [rewrite Z by auto; ring|rewrite B by auto; ring]. Qed.
Lemma quad_least : forall ids x y, (forall i, (i < n)%nat -> ~ In i ids -> act x i = 0) -> (forall i, In i ids -> y i = x i) ->
  quad n K y = quad n K x + quad n K (fun v => y v - x v).
Proof using Ksym.
  intros ids x y B E. rewrite (quad_ext y (fun v => x v + (y v - x v))) by (intros; ring). rewrite quad_add, (cross_zero ids); auto; [ring|]. intros i Hi. rewrite E by auto. ring.
Qed.
Hypothesis rows0 : forall i, (i < n)%nat -> sumn n (K i) = 0.
Lemma quad_pairs : forall x, quad n K x = - (1 / 2) * sumn n (fun i => sumn n (fun j => K i j * ((x i - x j) * (x i - x j)))).
Proof using Ksym rows0.
  intros x.
  rewrite (sumn_ext n (fun i => sumn n (fun j => K i j * ((x i - x j) * (x i - x j)))) (fun i => x i * x i * sumn n (K i) + -2 * sumn n (fun j => x i * K i j * x j) + sumn n (fun j => K i j * (x j * x j)))).
  - rewrite !sumn_plus. rewrite (sumn_0 n (fun i => x i * x i * sumn n (K i))) by (intros; rewrite rows0 by auto; ring).
    rewrite sumn_exchange. rewrite (sumn_0 n (fun j => sumn n (fun i => K i j * (x j * x j)))).
    + rewrite sumn_scal. unfold quad. field.
    + intros j Hj. rewrite sumn_scal_r. rewrite (sumn_ext n _ (K j)) by (intros; apply Ksym). rewrite rows0 by auto. ring.
  - intros i _. rewrite <- !sumn_scal, <- !sumn_plus. apply sumn_ext. intros. ring.
Qed.
Hypothesis off : forall i j, (i < n)%nat -> (j < n)%nat -> i <> j -> K i j <= 0.
Lemma quad_clip : forall x y, (forall i j, (i < n)%nat -> (j < n)%nat -> (y i - y j) * (y i - y j) <= (x i - x j) * (x i - x j)) -> quad n K y <= quad n K x.
Proof using Ksym rows0 off.
  intros x y H. rewrite !quad_pairs.
  assert (sumn n (fun i => sumn n (fun j => K i j * ((x i - x j) * (x i - x j)))) <= sumn n (fun i => sumn n (fun j => K i j * ((y i - y j) * (y i - y j))))); [|lra].
  apply sumn_le. intros i Hi. apply sumn_le. intros j Hj. destruct (Nat.eq_dec i j) as [->|N].
  - replace (x j - x j) with 0 by ring. replace (y j - y j) with 0 by ring. lra.
  - pose proof (off i j Hi Hj N) as O. pose proof (H i j Hi Hj).
    assert (0 <= (- K i j) * ((x i - x j) * (x i - x j) - (y i - y j) * (y i - y j))) by (apply Rmult_le_pos; lra). lra.
Qed.
(** no balanced value above those held, when the form is definite off ids *)
Lemma quad_max : forall ids x hi, (forall i, (i < n)%nat -> ~ In i ids -> act x i = 0) -> (forall i, In i ids -> x i <= hi) ->
  (forall z, (forall i, In i ids -> z i = 0) -> (exists i, (i < n)%nat /\ z i <> 0) -> 0 < quad n K z) ->
  forall i, (i < n)%nat -> x i <= hi.
Proof using Ksym rows0 off.
  intros ids x hi B H D i Hi. set (y := fun v => Rmin (x v) hi). destruct (Rle_lt_dec (x i) hi) as [L|L]; auto. exfalso.
  assert (Q : quad n K y <= quad n K x).
  { apply quad_clip. intros a b _ _. 
    assert (SQ : forall p q : R, 0 <= (q - p) * (q + p) -> p * p <= q * q) by (intros; lra). apply SQ.
    assert (PP : forall p q : R, 0 <= p -> 0 <= q -> 0 <= p * q) by (intros; apply Rmult_le_pos; auto).
    assert (NN : forall p q : R, p <= 0 -> q <= 0 -> 0 <= p * q) by (intros p q ? ?; replace (p * q) with ((- p) * (- q)) by ring; apply Rmult_le_pos; lra).
    unfold y, Rmin. destruct (Rle_dec (x a) hi), (Rle_dec (x b) hi).
    - replace (x a - x b - (x a - x b)) with 0 by ring. lra.
    - apply NN; lra.
    - apply PP; lra.
    - replace (hi - hi) with 0 by ring. replace ((x a - x b - 0) * (x a - x b + 0)) with ((x a - x b) * (x a - x b)) by ring. apply sq_nonneg. }
  assert (Yh : forall i, In i ids -> y i = x i) by (intros j Hj; unfold y; apply Rmin_left, H; auto).
  rewrite (quad_least ids x y B Yh) in Q.
  assert (0 < quad n K (fun v => y v - x v)); [|lra]. apply D.
  - intros j Hj. rewrite Yh by auto. ring.
  - exists i. split; auto. unfold y. rewrite Rmin_right by lra. lra.
Qed.
End Form.

(** ** the assembled matrix *)
Definition Kc {A} (sigma : A -> R) (m : mesh ROps A) (ps : list A) (a b : nat) : R :=
  suml (elements m ps) (fun x => kloc m (fst (snd x)) a b * (sigma (snd (snd x)) * m_depth m)).
Lemma Kc_sym : forall A sigma (m : mesh ROps A) ps a b, Kc sigma m ps a b = Kc sigma m ps b a.
Proof. intros. unfold Kc. apply suml_ext. intros x _. rewrite kloc_sym. reflexivity. Qed.
Lemma Kc_rows : forall A sigma (m : mesh ROps A) ps, fem_ready m ps -> forall a, (a < length (m_points m))%nat -> sumn (length (m_points m)) (Kc sigma m ps a) = 0.
Proof.
  intros A sigma m ps H. apply (rowsum_zero m (elements m ps) (fun x => fst (snd x)) (fun x => sigma (snd (snd x)) * m_depth m)); [apply elements_ok; auto|].
  intros. reflexivity.
Qed.
Lemma quad_ext_K : forall n K K' x, (forall a b, (a < n)%nat -> (b < n)%nat -> K a b = K' a b) -> quad n K x = quad n K' x.
Proof. intros n K K' x H. unfold quad. apply sumn_ext. intros i Hi. apply sumn_ext. intros j Hj. rewrite H by auto. reflexivity. Qed.

Lemma F2_map_fst : forall X (P : pt * R -> X -> Prop) l ids, Forall2 P l ids -> map fst (combine ids (map snd l)) = ids.
Proof. intros X P l ids F. induction F as [|c id l ids C F IH]; [reflexivity|]. cbn [map combine fst]. rewrite IH. reflexivity. Qed.
Lemma first_value_in : forall l i v, first_value l i = Some v -> In (i, v) l.
Proof.
  induction l as [|[a w] l IH]; intros i v H; [discriminate H|]. rewrite first_value_cons in H. destruct (Nat.eqb_spec a i) as [->|N]; [injection H as ->; left; auto|right; auto].
Qed.
Lemma last_value_nodup : forall l i v, NoDup (map fst l) -> (last_value l i = Some v <-> In (i, v) l).
Proof.
  induction l as [|[a w] l IH]; intros i v ND; [split; [discriminate|intros []]|]. rewrite last_value_cons. cbn in ND. apply NoDup_cons_iff in ND. destruct ND as [NI ND].
  destruct (last_value l i) as [u|] eqn:E.
  - pose proof (proj1 (IH i u ND) E) as I. split.
    + intros H; injection H as <-. right; auto.
    + intros [H|H]; [injection H as <- <-; exfalso; apply NI; change a with (fst (a, u)); apply in_map; auto|]. pose proof (proj2 (IH i v ND) H). congruence.
  - destruct (Nat.eqb_spec a i) as [->|N]; split.
    + intros H; injection H as <-. left; auto.
    + intros [H|H]; [injection H as <-; auto|]. pose proof (proj2 (IH i v ND) H). congruence.
    + discriminate.
    + intros [H|H]; [congruence|]. pose proof (proj2 (IH i v ND) H). congruence.
Qed.
Lemma held_ids : forall A (m : mesh ROps A) (l : list (pt * R)) ids ids', Forall2 (fun c id => closest (m_points m) (fst c) id) l ids -> Forall2 (fun c id => closest (m_points m) (fst c) id) l ids' -> ids = ids'.
Proof.
  intros A m l ids ids' F. revert ids'. induction F as [|c id l ids C F IH]; intros ids' F'; inversion F' as [|? id' ? ids1 C' F1]; subst; auto. f_equal; [eapply closest_unique; eauto|auto].
Qed.

(** what a settled conductor satisfies *)
Definition balanced {A} (sigma : A -> R) (m : mesh ROps A) (ps : list A) (L : list (nat * R)) (x : nat -> R) : Prop :=
  (forall id v, In (id, v) L -> x id = v) /\ (forall i, (i < length (m_points m))%nat -> ~ In i (map fst L) -> act (length (m_points m)) (Kc sigma m ps) x i = 0).
Lemma settled_iff : forall A (sigma : A -> R) m ps l ids x, fem_ready m ps -> all_used m -> held m l ids ->
  (settled sigma m l x <-> balanced sigma m ps (combine ids (map snd l)) x).
Proof.
  intros A sigma m ps l ids x Rd Us [F ND]. destruct (cd_values m ps sigma Rd Us) as [S [ES [VS [LS [_ [VM VB]]]]]].
  assert (RW : forall y i, (i < length (m_points m))%nat -> (row_eq S y i <-> act (length (m_points m)) (Kc sigma m ps) y i = 0)).
  { intros y i Hi. unfold row_eq, act. rewrite LS, VB. rewrite (sumn_ext _ (fun j => value 0 (sA R S) i j * y j) (fun j => Kc sigma m ps i j * y j)) by (intros; rewrite VM by auto; reflexivity). reflexivity. }
  assert (SI : forall S', voltages m S l = Ok S' -> (settled sigma m l x <-> solves S' x)).
  { intros S' E. split; [intros [S1 [S2 [E1 [E2 E3]]]]; rewrite ES in E1; injection E1 as <-; rewrite E in E2; injection E2 as <-; auto|]. intros; exists S, S'; auto. }
  unfold balanced. rewrite (F2_map_fst _ _ _ _ F). destruct (m_points m) as [|p0 pts] eqn:EP.
  - assert (l = []) as -> by (inversion F as [|c id l' ids' C]; auto; destruct C as [C _]; cbn in C; lia). inversion F; subst. rewrite (SI S eq_refl). split.
    + intros _. split; [intros id v []|]. cbn. intros; lia.
    + intros _ i Hi. rewrite LS in Hi. cbn in Hi. lia.
  - rewrite <- EP in *. assert (NE : m_points m <> []) by (rewrite EP; discriminate). destruct (voltages_ok A m S l VS LS NE) as [S' [ids' [E [VS' [LS' [F' Sol]]]]]].
    rewrite <- (held_ids A m l ids ids' F F') in Sol. rewrite (SI S' E), Sol.
    assert (ND' : NoDup (map fst (combine ids (map snd l)))) by (rewrite (F2_map_fst _ _ _ _ F); auto).
    split; intros [H1 H2].
    + assert (H3 : forall id v, In (id, v) (combine ids (map snd l)) -> x id = v) by (intros id v I; apply H1, last_value_nodup; auto).
      split; auto. intros i Hi NI. assert (Hr : row_eq S (imposed (combine ids (map snd l)) x) i) by (apply H2; auto; rewrite LS; auto).
      apply RW in Hr; auto. rewrite <- Hr. apply act_ext. intros v _. unfold imposed. destruct (first_value _ v) as [w|] eqn:Q; auto. apply H3. apply first_value_in; auto.
    + split; [intros i v I; apply H1, last_value_nodup; auto|]. intros i Hi NI. rewrite LS in Hi. apply RW; auto. rewrite <- (H2 i Hi NI). apply act_ext.
      intros v _. unfold imposed. destruct (first_value _ v) as [w|] eqn:Q; auto. symmetry. apply H1. apply first_value_in; auto.
Qed.

(** ** energy *)
Lemma in_elements_ps : forall A (m : mesh ROps A) ps x, In x (elements m ps) -> In (snd (snd x)) ps /\ In (fst (snd x), snd (snd x)) (combine (m_tris m) ps).
Proof.
  intros A m ps [i [t p]] H. unfold elements in H. apply in_combine_r in H. cbn. split; auto. apply in_combine_r in H. auto.
Qed.
Lemma Kc_nonneg : forall A (sigma : A -> R) m ps, fem_ready m ps -> (forall p, In p ps -> 0 <= sigma p) -> 0 <= m_depth m -> forall x, 0 <= quad (length (m_points m)) (Kc sigma m ps) x.
Proof.
  intros A sigma m ps Rd Hs Hd x.
  rewrite (quad_sum m (elements m ps) (fun x => fst (snd x)) (fun x => sigma (snd (snd x)) * m_depth m) (elements_ok m ps Rd) (Kc sigma m ps) (fun _ _ _ _ => eq_refl)). apply suml_nonneg. intros e He.
  destruct (in_elements_ps _ _ _ _ He) as [Ip _].
  assert (0 <= tri_area m (fst (snd e))) by (unfold tri_area; pose proof (Rabs_pos (tri_turn m (fst (snd e)))); lra).
  apply Rmult_le_pos; [apply Rmult_le_pos; auto; apply Rmult_le_pos; auto|].
  pose proof (sq_nonneg (gx m (fst (snd e)) x)). pose proof (sq_nonneg (gy m (fst (snd e)) x)). lra.
Qed.
Lemma Kc_definite : forall A (sigma : A -> R) m ps ids, fem_ready m ps -> all_used m -> (forall p, In p ps -> 0 < sigma p) -> 0 < m_depth m -> pins m ids ->
  forall z, (forall i, In i ids -> z i = 0) -> (exists i, (i < length (m_points m))%nat /\ z i <> 0) -> 0 < quad (length (m_points m)) (Kc sigma m ps) z.
Proof.
  intros A sigma m ps ids Rd Us Hs Hd Pn z Z N. destruct (cd_values m ps sigma Rd Us) as [S [ES [VS [LS [_ [VM VB]]]]]].
  destruct (energy_definite m ps Rd _ S LS VM) with (ids := ids) as [_ D]; auto.
  { intros x Hx. destruct (in_elements_ps _ _ _ _ Hx) as [Ip _]. apply Rmult_lt_0_compat; auto. }
  rewrite LS in D. rewrite <- (quad_ext_K _ (value 0 (sA R S))); auto.
Qed.
Lemma quad_mono : forall A (s1 s2 : A -> R) m ps x, fem_ready m ps -> 0 <= m_depth m -> (forall p, In p ps -> s1 p <= s2 p) -> quad (length (m_points m)) (Kc s1 m ps) x <= quad (length (m_points m)) (Kc s2 m ps) x.
Proof.
  intros A s1 s2 m ps x Rd Hd H.
  assert (P := Kc_nonneg A (fun p => s2 p - s1 p) m ps Rd (fun p I => ltac:(pose proof (H p I); lra)) Hd x).
  assert (E : quad (length (m_points m)) (Kc (fun p => s2 p - s1 p) m ps) x = quad (length (m_points m)) (Kc s2 m ps) x - quad (length (m_points m)) (Kc s1 m ps) x); [|lra].
  unfold quad. rewrite <- sumn_minus. apply sumn_ext. intros i _. rewrite <- sumn_minus. apply sumn_ext. intros j _.
  assert (Kc (fun p => s2 p - s1 p) m ps i j = Kc s2 m ps i j + -1 * Kc s1 m ps i j) as ->; [|ring]. unfold Kc. rewrite <- suml_scal, <- suml_plus. apply suml_ext. intros. ring.
Qed.
Lemma F2_grad : forall A (m : mesh ROps A) x gs, Forall (tri_in (length (m_points m))) (m_tris m) -> proper m ->
  (Forall2 (gradient_of m x) (m_tris m) gs <-> gs = map (fun t => P (gx m t x) (gy m t x)) (m_tris m)).
Proof.
  intros A m x gs F Hp. unfold proper in Hp. revert gs. induction (m_tris m) as [|t l IH]; intros gs.
  - split; [intros H; inversion H; auto|intros ->; constructor].
  - inversion F as [|? ? F1 F2]; subst. inversion Hp as [|? ? H1 H2]; subst. specialize (IH F2 H2). split.
    + intros H. inversion H as [|? g ? gs' G GS]; subst. cbn. f_equal; [apply (grad_unique m t H1 x); auto; apply grad_hat; auto|apply IH; auto].
    + intros ->. cbn. constructor; [apply grad_hat; auto|apply IH; auto].
Qed.
Lemma dissipates_quad : forall A (sigma : A -> R) m ps x w, fem_ready m ps -> all_used m ->
  (dissipates sigma m ps x w <-> w = quad (length (m_points m)) (Kc sigma m ps) x).
Proof.
  intros A sigma m ps x w Rd Us. destruct (cd_energy m ps sigma Rd Us) as [S [ES [VS [LS [_ [EN [_ _]]]]]]]. destruct (cd_values m ps sigma Rd Us) as [S2 [ES2 [_ [_ [_ [VM _]]]]]].
  rewrite ES in ES2. injection ES2 as <-. pose proof Rd as [[W1 _] [_ [_ Hp]]]. unfold dissipates.
  assert (Q : forall gs, Forall2 (gradient_of m x) (m_tris m) gs -> quad (length (m_points m)) (Kc sigma m ps) x = m_depth m * sum_tris m (combine ps gs) (fun t pg => sigma (fst pg) * norm2 (snd pg) * tri_area m t)).
  { intros gs F. rewrite <- (EN x gs F). symmetry. apply quad_ext_K. intros; apply VM; auto. }
  split.
  - intros [gs [F ->]]. rewrite <- Q; auto.
  - intros ->. exists (map (fun t => P (gx m t x) (gy m t x)) (m_tris m)). assert (F := proj2 (F2_grad A m x _ W1 Hp) eq_refl). split; auto.
Qed.
Lemma suml_elements : forall A (m : mesh ROps A) ps (f : tri * A -> R), length ps = length (m_tris m) -> suml (elements m ps) (fun x => f (snd x)) = suml (combine (m_tris m) ps) f.
Proof.
  intros A m ps f L. unfold elements. replace (length (m_tris m)) with (length (combine (m_tris m) ps)) by (rewrite combine_length; lia). apply suml_seq_snd.
Qed.
Lemma suml_combine4 : forall X Y Z W (ts : list X) (ps : list Y) (f : X -> Z) (g : X -> W) (F : X * (Y * (Z * W)) -> R),
  suml (combine ts (combine ps (combine (map f ts) (map g ts)))) F = suml (combine ts ps) (fun tp => F (fst tp, (snd tp, (f (fst tp), g (fst tp))))).
Proof.
  intros X Y Z W ts. induction ts as [|t ts IH]; intros ps f g F; [reflexivity|]. destruct ps as [|p ps]; [reflexivity|]. cbn [map combine]. rewrite !suml_cons, IH. reflexivity.
Qed.
Lemma leaves_act : forall A (sigma : A -> R) m ps x i c, fem_ready m ps -> (i < length (m_points m))%nat ->
  (leaves sigma m ps x i c <-> c = act (length (m_points m)) (Kc sigma m ps) x i).
Proof.
  intros A sigma m ps x i c Rd Hi. pose proof Rd as [[W1 _] [_ [_ Hp]]].
  set (e := fun v => if Nat.eqb v i then 1 else 0). set (gs := map (fun t => P (gx m t x) (gy m t x)) (m_tris m)). set (hs := map (fun t => P (gx m t e) (gy m t e)) (m_tris m)).
  assert (Q : act (length (m_points m)) (Kc sigma m ps) x i = m_depth m * sum_tris m (combine ps (combine gs hs)) (fun t q =>
      sigma (fst q) * (px (fst (snd q)) * px (snd (snd q)) + py (fst (snd q)) * py (snd (snd q))) * tri_area m t)).
  { unfold act, sum_tris, gs, hs. rewrite suml_combine4. cbn [fst snd]. rewrite <- suml_scal.
    rewrite <- (suml_elements A m ps (fun tp => m_depth m * (sigma (snd tp) * (px (P (gx m (fst tp) x) (gy m (fst tp) x)) * px (P (gx m (fst tp) e) (gy m (fst tp) e)) +
       py (P (gx m (fst tp) x) (gy m (fst tp) x)) * py (P (gx m (fst tp) e) (gy m (fst tp) e))) * tri_area m (fst tp)))) by (apply ready_len; auto).
    rewrite (sumn_ext _ _ (fun j => suml (elements m ps) (fun y => x j * (kloc m (fst (snd y)) i j * (sigma (snd (snd y)) * m_depth m))))) by (intros; rewrite suml_scal; unfold Kc; ring).
    rewrite <- suml_sumn. apply suml_ext. intros [k [t p]] He. cbn [fst snd]. rewrite !px_P, !py_P.
    assert (Ex : gx m t e = hatx m t i). { unfold gx, e. rewrite (sumn_ext _ _ (fun v => if Nat.eqb v i then hatx m t v else 0)) by (intros v _; destruct (Nat.eqb v i); ring). apply sumn_delta; auto. }
    assert (Ey : gy m t e = haty m t i). { unfold gy, e. rewrite (sumn_ext _ _ (fun v => if Nat.eqb v i then haty m t v else 0)) by (intros v _; destruct (Nat.eqb v i); ring). apply sumn_delta; auto. }
    rewrite Ex, Ey. unfold gx, gy, kloc, tri_area.
    rewrite (sumn_ext _ _ (fun j => (sigma p * m_depth m * (Rabs (tri_turn m t) / 2)) * (hatx m t i * (x j * hatx m t j) + haty m t i * (x j * haty m t j)))) by (intros; ring).
    rewrite sumn_scal, sumn_plus, !sumn_scal. ring. }
  unfold leaves. fold e. split.
  - intros [gs' [hs' [F1 [F2 ->]]]]. apply F2_grad in F1; auto. apply F2_grad in F2; auto. subst gs' hs'. rewrite Q. reflexivity.
  - intros ->. exists gs, hs. split; [apply F2_grad; auto; reflexivity|]. split; [apply F2_grad; auto; reflexivity|]. exact Q.
Qed.

(** ** similar meshes *)
Section Similar.
Variable k : R.
Variable f : pt -> pt.
Hypothesis sim : similarity k f.
Definition dot4 (p q r s : pt) : R := (px p - px q) * (px r - px s) + (py p - py q) * (py r - py s).
Lemma sim_dot : forall p q r s, dot4 (f p) (f q) (f r) (f s) = k * k * dot4 p q r s.
Proof.
  destruct sim as [_ H]. intros p q r s.
  assert (D : forall a b c d, dot4 a b c d = (dist a d * dist a d + dist b c * dist b c - dist a c * dist a c - dist b d * dist b d) / 2).
  { intros. rewrite !dist_sq. unfold dot4. field. }
  rewrite !D, !H. field.
Qed.
Lemma sim_turn : forall a b c, Rabs (turn (f a) (f b) (f c)) = k * k * Rabs (turn a b c).
Proof.
  pose proof sim as [Hk _]. intros a b c.
  assert (D : forall a b c, turn a b c * turn a b c = dot4 b a b a * dot4 c a c a - dot4 b a c a * dot4 b a c a) by (intros; unfold turn, dot4; ring).
  assert (E : turn (f a) (f b) (f c) * turn (f a) (f b) (f c) = (k * k * turn a b c) * (k * k * turn a b c)).
  { replace ((k * k * turn a b c) * (k * k * turn a b c)) with (k * k * (k * k) * (turn a b c * turn a b c)) by ring. rewrite !D, !sim_dot. ring. }
  rewrite <- (Rabs_right (k * k)) by (apply Rle_ge, Rlt_le, Rmult_lt_0_compat; auto). rewrite <- Rabs_mult. apply Rsqr_eq_abs_0. exact E.
Qed.
Context {A : Type}.
Variable m : mesh ROps A.
Notation n := (length (m_points m)).
Lemma carried_len : length (m_points (carried f m)) = n.
Proof using. unfold carried. cbn [m_points]. apply map_length. Qed.
Lemma carried_pos : forall v, (v < n)%nat -> pos (carried f m) v = f (pos m v).
Proof using. intros v H. unfold pos, carried. cbn [m_points]. rewrite (nth_indep _ org (f org)) by (rewrite map_length; auto). apply map_nth. Qed.
Lemma carried_turn : forall t, tri_in n t -> Rabs (tri_turn (carried f m) t) = k * k * Rabs (tri_turn m t).
Proof. intros t [H0 [H1 H2]]. unfold tri_turn. rewrite !carried_pos by auto. apply sim_turn. Qed.
Lemma carried_proper : forall t, tri_in n t -> tri_turn m t <> 0 -> tri_turn (carried f m) t <> 0.
Proof.
  intros t H N E. pose proof (carried_turn t H) as Q. rewrite E, Rabs_R0 in Q. pose proof (Rabs_pos_lt _ N). destruct sim as [Hk _].
  assert (0 < k * k * Rabs (tri_turn m t)) by (repeat apply Rmult_lt_0_compat; auto). lra.
Qed.
Lemma carried_ready : forall ps, fem_ready m ps -> fem_ready (carried f m) ps.
Proof.
  intros ps [[W1 [W2 W3]] [HP [HD Hp]]]. split; [split; [rewrite carried_len; exact W1|split; [exact W2|rewrite carried_len; exact W3]]|]. split; [exact HP|]. split; [exact HD|].
  unfold proper in *. rewrite Forall_forall in *. intros t It. apply carried_proper; auto.
Qed.
Definition nxt (t : tri) (a : nat) : nat := if Nat.eqb a (t0 t) then t1 t else if Nat.eqb a (t1 t) then t2 t else t0 t.
Definition prv (t : tri) (a : nat) : nat := if Nat.eqb a (t0 t) then t2 t else if Nat.eqb a (t1 t) then t0 t else t1 t.
Lemma kloc_dot : forall B (m : mesh ROps B) t a b, tri_turn m t <> 0 -> is_corner a t -> is_corner b t ->
  kloc m t a b = dot4 (pos m (nxt t a)) (pos m (prv t a)) (pos m (nxt t b)) (pos m (prv t b)) / (2 * Rabs (tri_turn m t)).
Proof using.
  clear. intros B m t a b HD Ca Cb.
  assert (HX : forall a, is_corner a t -> hatx m t a = (py (pos m (nxt t a)) - py (pos m (prv t a))) / tri_turn m t /\ haty m t a = (px (pos m (prv t a)) - px (pos m (nxt t a))) / tri_turn m t).
  { intros v C. unfold hatx, haty, nxt, prv. destruct (Nat.eqb_spec v (t0 t)); auto. destruct (Nat.eqb_spec v (t1 t)); auto. destruct (Nat.eqb_spec v (t2 t)); auto. destruct C as [|[|]]; contradiction. }
  unfold kloc. destruct (HX a Ca) as [-> ->]. destruct (HX b Cb) as [-> ->]. unfold dot4.
  assert (HA : Rabs (tri_turn m t) <> 0) by (apply Rabs_no_R0; auto).
  assert (SQ : Rabs (tri_turn m t) * Rabs (tri_turn m t) = tri_turn m t * tri_turn m t) by (rewrite <- Rabs_mult; apply Rabs_right, Rle_ge, (Rle_0_sqr (tri_turn m t))).
  set (D := tri_turn m t) in *. set (M := Rabs D) in *. 
  match goal with |- M / 2 * (?p / D * (?q / D) + ?r / D * (?s / D)) = ?N / _ => replace (p / D * (q / D) + r / D * (s / D)) with (N / (M * M)) by (rewrite SQ; field; auto) end.
  field. auto.
Qed.
Lemma carried_kloc : forall t a b, tri_in n t -> tri_turn m t <> 0 -> kloc (carried f m) t a b = kloc m t a b.
Proof.
  intros t a b Ht HD. assert (DC : forall v, is_corner v t \/ ~ is_corner v t).
  { intros v. unfold is_corner. destruct (Nat.eq_dec v (t0 t)); auto. destruct (Nat.eq_dec v (t1 t)); auto. destruct (Nat.eq_dec v (t2 t)); auto. right. intuition. }
  destruct (DC a) as [Ca|Ca]; [|rewrite !kloc_off; auto]. destruct (DC b) as [Cb|Cb]; [|rewrite !(kloc_sym _ t a b), !kloc_off; auto].
  rewrite !kloc_dot by (auto using carried_proper). rewrite carried_turn by auto.
  assert (NX : forall v, (nxt t v < n)%nat /\ (prv t v < n)%nat) by (intros v; destruct Ht as [? [? ?]]; unfold nxt, prv; destruct (Nat.eqb v (t0 t)); auto; destruct (Nat.eqb v (t1 t)); auto).
  rewrite !carried_pos by apply NX. rewrite sim_dot. destruct sim as [Hk _]. pose proof (Rabs_pos_lt _ HD). field. split; lra.
Qed.
Lemma carried_Kc : forall (sigma : A -> R) ps a b, fem_ready m ps -> Kc sigma (carried f m) ps a b = Kc sigma m ps a b.
Proof.
  intros sigma ps a b Rd. unfold Kc. change (elements (carried f m) ps) with (elements m ps). change (m_depth (carried f m)) with (m_depth m). apply suml_ext.
  intros x Hx. destruct (elements_ok m ps Rd x Hx). rewrite carried_kloc; auto.
Qed.
Lemma carried_closest : forall p i, closest (m_points m) p i <-> closest (m_points (carried f m)) (f p) i.
Proof.
  destruct sim as [Hk Hd]. intros p i. unfold closest. rewrite carried_len.
  assert (Q : forall j, (j < n)%nat -> dist (f p) (nth j (m_points (carried f m)) org) = k * dist p (nth j (m_points m) org)).
  { intros j Hj. change (nth j (m_points (carried f m)) org) with (pos (carried f m) j). rewrite carried_pos by auto. apply Hd. }
  split; intros [Hi [H1 H2]]; split; auto; (split; intros j Hj; [specialize (H1 j Hj)|specialize (H2 j Hj)]).
  - rewrite !Q by auto. apply Rmult_le_compat_l; lra.
  - rewrite !Q by (auto; lia). apply Rmult_lt_compat_l; lra.
  - rewrite !Q in H1 by auto. apply Rmult_le_reg_l in H1; auto.
  - rewrite !Q in H2 by (auto; lia). apply Rmult_lt_reg_l in H2; auto.
Qed.
Lemma carried_held : forall l ids, held m l ids -> held (carried f m) (carried_calls f l) ids.
Proof.
  intros l ids [F ND]. split; auto. unfold carried_calls. induction F as [|c id l ids C F IH]; cbn; constructor.
  - cbn [fst]. apply carried_closest in C. exact C.
  - apply IH. apply NoDup_cons_iff in ND. apply ND.
Qed.
Lemma carried_settled : forall (sigma : A -> R) ps l ids x, fem_ready m ps -> all_used m -> held m l ids ->
  (settled sigma (carried f m) (carried_calls f l) x <-> settled sigma m l x).
Proof.
  intros sigma ps l ids x Rd Us Hh. rewrite (settled_iff A sigma m ps l ids x Rd Us Hh).
  rewrite (settled_iff A sigma (carried f m) ps (carried_calls f l) ids x); [|apply carried_ready; auto|unfold all_used; rewrite carried_len; exact Us|apply carried_held; auto].
  unfold balanced. replace (map snd (carried_calls f l)) with (map snd l) by (unfold carried_calls; rewrite map_map; reflexivity). rewrite carried_len.
  assert (E : forall i, act n (Kc sigma (carried f m) ps) x i = act n (Kc sigma m ps) x i) by (intros; unfold act; apply sumn_ext; intros; rewrite carried_Kc; auto).
  split; intros [H1 H2]; split; auto; intros i Hi NI; [rewrite <- E|rewrite E]; auto.
Qed.
Lemma carried_power : forall (sigma : A -> R) ps x w, fem_ready m ps -> all_used m -> (dissipates sigma (carried f m) ps x w <-> dissipates sigma m ps x w).
Proof.
  intros sigma ps x w Rd Us. rewrite (dissipates_quad A sigma m); auto. rewrite (dissipates_quad A sigma (carried f m)); [|apply carried_ready; auto|unfold all_used; rewrite carried_len; exact Us].
  rewrite carried_len. rewrite (quad_ext_K n (Kc sigma (carried f m) ps) (Kc sigma m ps)); [reflexivity|]. intros; apply carried_Kc; auto.
Qed.
End Similar.

(** ** superposition and scale *)
Lemma held_vals : forall A (m : mesh ROps A) l ids l', held m l ids -> map fst l' = map fst l -> held m l' ids.
Proof.
  intros A m l ids l' [F ND] E. split; auto. clear ND. revert l' E. induction F as [|c id l ids C F IH]; intros [|c' l'] E; try discriminate E; constructor; cbn in E; injection E as E1 E2; [rewrite E1; auto|auto].
Qed.
Lemma act_scale_K : forall n K c x i, act n (fun a b => c * K a b) x i = c * act n K x i.
Proof. intros. unfold act. rewrite <- sumn_scal. apply sumn_ext. intros. ring. Qed.
Lemma act_ext_K : forall n K K' x i, (forall b, (b < n)%nat -> K i b = K' i b) -> act n K x i = act n K' x i.
Proof. intros. unfold act. apply sumn_ext. intros. rewrite H; auto. Qed.
Lemma Kc_scale : forall A (sigma : A -> R) c d (m : mesh ROps A) ps a b, m_depth m <> 0 -> Kc (fun p => c * sigma p) (with_depth d m) ps a b = c * d / m_depth m * Kc sigma m ps a b.
Proof.
  intros A sigma c d m ps a b Hd. unfold Kc. rewrite <- suml_scal. change (elements (with_depth d m) ps) with (elements m ps). apply suml_ext. intros x _.
  change (m_depth (with_depth d m)) with d. change (kloc (with_depth d m)) with (kloc m). field. auto.
Qed.
Lemma in_combine_map2 : forall (ids : list nat) (us vs ws : list R) (a b : R), length us = length ids -> length vs = length ids ->
  (forall k u v, nth_error us k = Some u -> nth_error vs k = Some v -> nth_error ws k = Some (a * u + b * v)) ->
  forall id w, In (id, w) (combine ids ws) -> exists u v, In (id, u) (combine ids us) /\ In (id, v) (combine ids vs) /\ w = a * u + b * v.
Proof.
  induction ids as [|i ids IH]; intros us vs ws a b L1 L2 H id w I; [destruct I|]. destruct us as [|u us]; [discriminate L1|]. destruct vs as [|v vs]; [discriminate L2|].
  destruct ws as [|w' ws]; [destruct I|]. pose proof (H 0%nat u v eq_refl eq_refl) as E. cbn in E. injection E as ->. cbn in I. destruct I as [I|I].
  - injection I as <- <-. exists u, v. cbn. auto.
  - destruct (IH us vs ws a b) with (id := id) (w := w) as [u' [v' [I1 [I2 E]]]]; auto; [intros k; apply (H (S k))|]. exists u', v'. cbn. auto.
Qed.

(** ** the sign of the entries *)
Lemma Kc_off : forall A (sigma : A -> R) (m : mesh ROps A) ps a b, fem_ready m ps -> a <> b ->
  Kc sigma m ps a b = - (m_depth m / 2) * suml (filter (fun tp => corner_of a (fst tp) && corner_of b (fst tp)) (combine (m_tris m) ps)) (fun tp => sigma (snd tp) * opposite m a b (fst tp)).
Proof.
  intros A sigma m ps a b Rd N. pose proof Rd as [_ [_ [_ Hp]]]. unfold Kc. rewrite (suml_elements A m ps (fun tp => kloc m (fst tp) a b * (sigma (snd tp) * m_depth m))) by (apply ready_len; auto).
  unfold proper in Hp. rewrite Forall_forall in Hp.
  assert (G : forall l : list (tri * A), (forall tp, In tp l -> tri_turn m (fst tp) <> 0) -> suml l (fun tp => kloc m (fst tp) a b * (sigma (snd tp) * m_depth m)) =
    - (m_depth m / 2) * suml (filter (fun tp => corner_of a (fst tp) && corner_of b (fst tp)) l) (fun tp => sigma (snd tp) * opposite m a b (fst tp))).
  { induction l as [|[t p] l IH]; intros H; [unfold suml; cbn; ring|]. cbn [filter]. rewrite suml_cons, IH by (intros; apply H; right; auto). cbn [fst snd].
    assert (Ht : tri_turn m t <> 0) by (apply (H (t, p)); left; auto). change (corner_of a t && corner_of b t) with (both a b t). destruct (both a b t) eqn:B.
    - rewrite suml_cons. cbn [fst snd]. rewrite kloc_opposite by auto. field.
    - assert (K : kloc m t a b = 0).
      { assert (NC : forall v, corner_of v t = false -> ~ is_corner v t).
        { intros v C [E|[E|E]]; unfold corner_of, corners in C; cbn [existsb] in C; rewrite <- E, Nat.eqb_refl in C; rewrite ?orb_true_r in C; discriminate C. }
        unfold both in B. apply andb_false_iff in B. destruct B as [B|B]; [apply kloc_off; auto|rewrite kloc_sym; apply kloc_off; auto]. }
      rewrite K. ring. }
  apply G. intros [t p] I. apply in_combine_l in I. apply Hp; auto.
Qed.
Lemma acute_cotangents : forall A (sigma : A -> R) (m : mesh ROps A) ps, fem_ready m ps -> never_obtuse m -> (forall p, In p ps -> 0 <= sigma p) -> cotangents_nonneg sigma m ps.
Proof.
  intros A sigma m ps Rd NO Hs a b N. pose proof Rd as [_ [_ [_ Hp]]]. unfold proper in Hp. rewrite Forall_forall in Hp. apply suml_nonneg. intros [t p] I. apply filter_In in I. destruct I as [I B]. cbn [fst snd] in *.
  pose proof (in_combine_l _ _ _ _ I) as It. pose proof (in_combine_r _ _ _ _ I) as Ip. apply Rmult_le_pos; [auto|]. pose proof (Hp t It) as HD.
  destruct (apex_corner a b t (turn_distinct m t HD) N B) as [C1 [C2 [C3 [C4 C5]]]]. assert (IC : forall v, is_corner v t -> In v (corners t)) by (intros v [->|[->| ->]]; unfold corners; cbn; auto).
  unfold opposite, cotangent. rewrite (apex_turn A m a b t (turn_distinct m t HD) N B). apply Rmult_le_pos; [apply (NO t); auto|]. left. apply Rinv_0_lt_compat, Rabs_pos_lt; auto.
Qed.

(** ** affine fields *)
Section Patch.
Context {A : Type}.
Variable m : mesh ROps A.
Notation ts := (m_tris m).
Notation D := (concat (map (ccw_sides m) ts)).
(** the coordinate function q seen from the corner i along a counterclockwise side *)
Definition seen (q : nat -> R) (i u v : nat) : R := (if Nat.eqb u i then q v else 0) - (if Nat.eqb v i then q u else 0).
Lemma seen_anti : forall q i u v, seen q i v u = - seen q i u v.
Proof using. intros. unfold seen. ring. Qed.
Lemma seen_tri : forall i t, tri_turn m t <> 0 ->
  suml (ccw_sides m t) (fun e => seen (fun v => py (pos m v)) i (fst e) (snd e)) = Rabs (tri_turn m t) * hatx m t i /\
  suml (ccw_sides m t) (fun e => seen (fun v => px (pos m v)) i (fst e) (snd e)) = - (Rabs (tri_turn m t) * haty m t i).
Proof using.
  intros i t HD. destruct (turn_distinct m t HD) as [N1 [N2 N3]]. unfold ccw_sides.
  assert (SG : (Rabs (tri_turn m t) = tri_turn m t /\ ~ tri_turn m t < 0) \/ (Rabs (tri_turn m t) = - tri_turn m t /\ tri_turn m t < 0)).
  { destruct (Rlt_dec (tri_turn m t) 0); [right; split; auto; apply Rabs_left; auto|left; split; auto; apply Rabs_right; lra]. }
  unfold hatx, haty, seen. set (T := tri_turn m t) in *.
  destruct SG as [[-> Q]|[-> Q]]; (destruct (Rlt_dec T 0); [try contradiction|try contradiction]); unfold suml; cbn [map fold_right fst snd]; rewrite !(Nat.eqb_sym _ i);
  destruct (Nat.eqb_spec i (t0 t)), (Nat.eqb_spec i (t1 t)), (Nat.eqb_spec i (t2 t)); subst; try congruence; split; field; auto.
Qed.
Lemma surrounded_sum : conforming m -> forall i q, surrounded m i -> suml D (fun e => seen q i (fst e) (snd e)) = 0.
Proof using.
  intros Cf i q Sr. pose proof (conforming_no_fold A m Cf) as NF. pose proof Cf as [W [Hp _]]. unfold proper in Hp. rewrite Forall_forall in Hp.
  apply swap_sum; [exact NF|intros; apply seen_anti|]. intros u v I J. unfold seen.
  assert (Go : forall b, b <> i -> In (u, v) [(i, b); (b, i)] -> False).
  { intros b Nb Iuv. apply in_concat in I. destruct I as [s [I1 I2]]. apply in_map_iff in I1. destruct I1 as [t [<- It]]. destruct (corners_of_ccw A m t u v I2) as [Iu Iv].
    destruct (In_nth_error _ _ It) as [x Ex]. set (g := fun t => corner_of i t && corner_of b t).
    assert (CO : forall v t, In v (corners t) <-> corner_of v t = true) by (intros w t'; unfold corner_of; rewrite existsb_exists; split; [intros; exists w; split; auto; apply Nat.eqb_refl|intros [w' [? E]]; apply Nat.eqb_eq in E; subst; auto]).
    assert (Gt : g t = true). { unfold g. apply andb_true_iff. rewrite <- !CO. destruct Iuv as [E|[E|[]]]; injection E as <- <-; auto. }
    assert (EX : exists y t', y <> x /\ nth_error ts y = Some t' /\ g t' = true).
    { specialize (Sr b Nb). change (CotSpec.sharing m i b) with (filter g ts) in Sr. clear - Ex Gt Sr. clearbody g. revert x Ex Sr. induction ts as [|z l IH]; intros x Ex Sr; [destruct x; discriminate|]. destruct x as [|x].
      - cbn in Ex. injection Ex as ->. cbn in Sr. rewrite Gt in Sr. cbn in Sr. destruct (filter g l) as [|t' r] eqn:Fl; [cbn in Sr; lia|].
        assert (In t' (filter g l)) by (rewrite Fl; left; auto). apply filter_In in H. destruct H as [H1 H2]. destruct (In_nth_error _ _ H1) as [y Ey]. exists (S y), t'. auto.
      - cbn in Ex, Sr. destruct (g z) eqn:Gz; [exists 0%nat, z; auto|]. destruct (IH x Ex Sr) as [y [t' [N1 [N2 N3]]]]. exists (S y), t'. repeat split; auto. }
    destruct EX as [y [t' [Ny [Ey Gt']]]]. unfold g in Gt'. apply andb_true_iff in Gt'. destruct Gt' as [G1 G2]. apply CO in G1. apply CO in G2.
    assert (Iu' : In u (corners t') /\ In v (corners t') /\ u <> v) by (destruct Iuv as [E|[E|[]]]; injection E as <- <-; auto). destruct Iu' as [Iu' [Iv' Nuv]].
    destruct (ccw_of_corners A m t' u v Iu' Iv' Nuv) as [S1|S1].
    - apply (concat_once _ _ (ccw_sides m) ts x y t t' (u, v)); auto.
    - apply J. apply in_concat. exists (ccw_sides m t'). split; auto. apply in_map. eapply nth_error_In; eauto. }
  destruct (Nat.eqb_spec u i) as [->|N1], (Nat.eqb_spec v i) as [->|N2].
  - ring.
  - exfalso. apply (Go v); auto. left; auto.
  - exfalso. apply (Go u); auto. right; left; auto.
  - ring.
Qed.
Lemma affine_grad_hat : forall a b c t, tri_in (length (m_points m)) t -> tri_turn m t <> 0 ->
  gx m t (fun v => a + b * px (pos m v) + c * py (pos m v)) = b /\ gy m t (fun v => a + b * px (pos m v) + c * py (pos m v)) = c.
Proof using.
  intros a b c t Ht HD. pose proof (affine_gradient m a b c t _ HD (grad_hat m t Ht HD _)) as E. pose proof (f_equal px E) as E1. pose proof (f_equal py E) as E2. rewrite !px_P in E1. rewrite !py_P in E2. auto.
Qed.
Lemma patch : forall (sigma : A -> R) ps s a b c i, fem_ready m ps -> conforming m -> (forall p, In p ps -> sigma p = s) -> surrounded m i ->
  act (length (m_points m)) (Kc sigma m ps) (fun v => a + b * px (pos m v) + c * py (pos m v)) i = 0.
Proof using.
  intros sigma ps s a b c i Rd Cf Hs Sr. pose proof Rd as [[W1 _] [_ [_ Hp]]]. unfold proper in Hp. rewrite Forall_forall in Hp, W1. set (x := fun v => a + b * px (pos m v) + c * py (pos m v)).
  assert (E : act (length (m_points m)) (Kc sigma m ps) x i = s * m_depth m / 2 * suml ts (fun t => b * (Rabs (tri_turn m t) * hatx m t i) + c * (Rabs (tri_turn m t) * haty m t i))).
  { unfold act. rewrite (sumn_ext _ _ (fun j => suml (elements m ps) (fun y => x j * (kloc m (fst (snd y)) i j * (sigma (snd (snd y)) * m_depth m))))) by (intros; rewrite suml_scal; unfold Kc; ring).
    rewrite <- suml_sumn. rewrite (suml_ext _ (elements m ps) _ (fun y => s * m_depth m / 2 * (b * (Rabs (tri_turn m (fst (snd y))) * hatx m (fst (snd y)) i) + c * (Rabs (tri_turn m (fst (snd y))) * haty m (fst (snd y)) i)))).
    - rewrite suml_scal. f_equal. rewrite (suml_elements A m ps (fun tp => b * (Rabs (tri_turn m (fst tp)) * hatx m (fst tp) i) + c * (Rabs (tri_turn m (fst tp)) * haty m (fst tp) i))) by (apply ready_len; auto).
      rewrite <- (suml_map _ _ fst (combine ts ps) (fun t => b * (Rabs (tri_turn m t) * hatx m t i) + c * (Rabs (tri_turn m t) * haty m t i))). f_equal.
      pose proof (ready_len m ps Rd) as L. clear - L. revert ps L. induction ts as [|t l IH]; intros [|p ps] L; try discriminate; auto. cbn. f_equal. apply IH. cbn in L. lia.
    - intros y Hy. destruct (elements_ok m ps Rd y Hy) as [H1 H2]. destruct (in_elements_ps _ _ _ _ Hy) as [Ip _]. rewrite (Hs _ Ip). set (t := fst (snd y)) in *.
      destruct (affine_grad_hat a b c t H1 H2) as [X Y]. change (sumn (length (m_points m)) (fun j => x j * hatx m t j) = b) in X. change (sumn (length (m_points m)) (fun j => x j * haty m t j) = c) in Y. unfold kloc.
      rewrite (sumn_ext _ _ (fun j => (s * m_depth m / 2 * Rabs (tri_turn m t)) * (hatx m t i * (x j * hatx m t j) + haty m t i * (x j * haty m t j)))) by (intros; field).
      rewrite sumn_scal, sumn_plus, !sumn_scal. rewrite X, Y. field. }
  rewrite E. pose proof (surrounded_sum Cf i (fun v => py (pos m v)) Sr) as Z1. pose proof (surrounded_sum Cf i (fun v => px (pos m v)) Sr) as Z2. rewrite suml_concat in Z1, Z2.
  rewrite (suml_ext _ ts _ (fun t => Rabs (tri_turn m t) * hatx m t i)) in Z1 by (intros t It; apply seen_tri; auto).
  rewrite (suml_ext _ ts _ (fun t => - 1 * (Rabs (tri_turn m t) * haty m t i))) in Z2 by (intros t It; rewrite (proj2 (seen_tri i t (Hp t It))); ring).
  rewrite suml_scal in Z2. rewrite suml_plus, !suml_scal, Z1. replace (suml ts (fun t => Rabs (tri_turn m t) * haty m t i)) with 0 by lra. ring.
Qed.
End Patch.
