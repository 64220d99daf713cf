(** Energy, row sums and loads of the assembled systems, and their solvability once nodes are pinned. *)
From Coq Require Import String.
From Coq Require Import List Arith ZArith NArith Bool Lia Reals Lra Permutation.
From Verif Require Import Base SumR AlgebraModel AlgebraSpec Coo_proofs Csr_proofs System_proofs NonLinear_proofs Algebra_bridge GeometryModel GeometrySpec DrawingModel DrawingSpec SolversSpec Geometry_proofs MeshModel MeshSpec Adjacency_proofs Fem_proofs.
Import ListNotations.
Local Open Scope R_scope.

Lemma sumn_three : forall n (f : nat -> R) a b c, (a < n)%nat -> (b < n)%nat -> (c < n)%nat -> a <> b -> b <> c -> c <> a ->
  (forall i, i <> a -> i <> b -> i <> c -> f i = 0) -> sumn n f = f a + f b + f c.
Proof.
  intros n f a b c Ha Hb Hc N1 N2 N3 H.
  rewrite <- (sumn_delta n a f Ha), <- (sumn_delta n b f Hb), <- (sumn_delta n c f Hc), <- !sumn_plus.
  apply sumn_ext. intros i Hi. destruct (Nat.eqb_spec i a), (Nat.eqb_spec i b), (Nat.eqb_spec i c); subst; try congruence; try ring.
  rewrite H by auto. ring.
Qed.

Section Hats.
Context {A : Type}.
Variable m : mesh ROps A.
Notation n := (length (m_points m)).
Variable t : tri.
Hypothesis Hin : tri_in n t.
Hypothesis HD : tri_turn m t <> 0.

Definition gx (x : nat -> R) : R := sumn n (fun v => x v * hatx m t v).
Definition gy (x : nat -> R) : R := sumn n (fun v => x v * haty m t v).
Lemma hat_values :
  hatx m t (t0 t) = (py (pos m (t1 t)) - py (pos m (t2 t))) / tri_turn m t /\
  hatx m t (t1 t) = (py (pos m (t2 t)) - py (pos m (t0 t))) / tri_turn m t /\
  hatx m t (t2 t) = (py (pos m (t0 t)) - py (pos m (t1 t))) / tri_turn m t /\
  haty m t (t0 t) = (px (pos m (t2 t)) - px (pos m (t1 t))) / tri_turn m t /\
  haty m t (t1 t) = (px (pos m (t0 t)) - px (pos m (t2 t))) / tri_turn m t /\
  haty m t (t2 t) = (px (pos m (t1 t)) - px (pos m (t0 t))) / tri_turn m t.
Proof.
  destruct (turn_distinct m t HD) as [N1 [N2 N3]]. unfold hatx, haty. rewrite !Nat.eqb_refl.
  repeat match goal with |- context [Nat.eqb ?a ?b] => replace (Nat.eqb a b) with false by (symmetry; apply Nat.eqb_neq; auto) end.
  repeat split; reflexivity.
Qed.
Lemma gx_eq : forall x, gx x = x (t0 t) * hatx m t (t0 t) + x (t1 t) * hatx m t (t1 t) + x (t2 t) * hatx m t (t2 t).
Proof.
  intros x. unfold gx. destruct (turn_distinct m t HD) as [N1 [N2 N3]]. destruct Hin as [I1 [I2 I3]].
  apply (sumn_three n (fun v => x v * hatx m t v)); auto. intros i A1 A2 A3. cbn beta. destruct (hat_off m t i) as [-> _]; [|ring]. intros [E|[E|E]]; auto.
Qed.
Lemma gy_eq : forall x, gy x = x (t0 t) * haty m t (t0 t) + x (t1 t) * haty m t (t1 t) + x (t2 t) * haty m t (t2 t).
Proof.
  intros x. unfold gy. destruct (turn_distinct m t HD) as [N1 [N2 N3]]. destruct Hin as [I1 [I2 I3]].
  apply (sumn_three n (fun v => x v * haty m t v)); auto. intros i A1 A2 A3. cbn beta. destruct (hat_off m t i) as [_ ->]; [|ring]. intros [E|[E|E]]; auto.
Qed.
Lemma grad_hat : forall x, gradient_of m x t (P (gx x) (gy x)).
Proof.
  intros x. unfold gradient_of. rewrite px_P, py_P, gx_eq, gy_eq. destruct hat_values as [-> [-> [-> [-> [-> ->]]]]].
  unfold tri_turn, turn in *. unfold px, py. cbn [vx vy]. split; field; exact HD.
Qed.
Lemma grad_unique : forall x g g', gradient_of m x t g -> gradient_of m x t g' -> g = g'.
Proof.
  intros x [a b] [c d] [H1 H2] [H3 H4]. unfold tri_turn, turn, px, py in *. cbn [vx vy] in *.
  set (x0 := vx (pos m (t0 t))) in *. set (y0 := vy (pos m (t0 t))) in *. set (x1 := vx (pos m (t1 t))) in *. set (y1 := vy (pos m (t1 t))) in *.
  set (x2 := vx (pos m (t2 t))) in *. set (y2 := vy (pos m (t2 t))) in *. cbn [T ROps] in *.
  assert (E1 : (a - c) * (x1 - x0) + (b - d) * (y1 - y0) = 0) by lra.
  assert (E2 : (a - c) * (x2 - x0) + (b - d) * (y2 - y0) = 0) by lra.
  assert (F1 : (a - c) * ((x1 - x0) * (y2 - y0) - (y1 - y0) * (x2 - x0)) = 0).
  { replace (_ * _) with (((a - c) * (x1 - x0) + (b - d) * (y1 - y0)) * (y2 - y0) - ((a - c) * (x2 - x0) + (b - d) * (y2 - y0)) * (y1 - y0)) by ring. rewrite E1, E2. ring. }
  assert (F2 : (b - d) * ((x1 - x0) * (y2 - y0) - (y1 - y0) * (x2 - x0)) = 0).
  { replace (_ * _) with (((a - c) * (x2 - x0) + (b - d) * (y2 - y0)) * (x1 - x0) - ((a - c) * (x1 - x0) + (b - d) * (y1 - y0)) * (x2 - x0)) by ring. rewrite E1, E2. ring. }
  assert (HD' : (x1 - x0) * (y2 - y0) - (y1 - y0) * (x2 - x0) <> 0) by (intros E; apply HD; rewrite <- E; ring).
  apply Rmult_integral in F1. apply Rmult_integral in F2. f_equal; [destruct F1|destruct F2]; try contradiction; cbn [T ROps]; lra.
Qed.
Lemma grad_norm : forall x g, gradient_of m x t g -> norm2 g = gx x * gx x + gy x * gy x.
Proof. intros x g H. rewrite (grad_unique x g (P (gx x) (gy x))); auto. apply grad_hat. Qed.
Lemma hat_sum0 : sumn n (hatx m t) = 0 /\ sumn n (haty m t) = 0.
Proof.
  pose proof (gx_eq (fun _ => 1)) as X. pose proof (gy_eq (fun _ => 1)) as Y. unfold gx, gy in *.
  rewrite (sumn_ext n (fun v => 1 * hatx m t v) (hatx m t)) in X by (intros; ring).
  rewrite (sumn_ext n (fun v => 1 * haty m t v) (haty m t)) in Y by (intros; ring).
  rewrite X, Y. destruct hat_values as [-> [-> [-> [-> [-> ->]]]]]. split; field; auto.
Qed.
Lemma kloc_rowsum : forall a, sumn n (kloc m t a) = 0.
Proof.
  intros a. destruct hat_sum0 as [X Y]. unfold kloc.
  rewrite sumn_scal, sumn_plus, !sumn_scal, X, Y. ring.
Qed.
Lemma kloc_quad : forall x, sumn n (fun i => sumn n (fun j => x i * kloc m t i j * x j)) = Rabs (tri_turn m t) / 2 * (gx x * gx x + gy x * gy x).
Proof.
  intros x. unfold gx, gy.
  rewrite (sumn_ext n _ (fun i => Rabs (tri_turn m t) / 2 * (x i * hatx m t i * gx x + x i * haty m t i * gy x))).
  - rewrite sumn_scal, sumn_plus. rewrite !sumn_scal_r. unfold gx, gy. ring.
  - intros i Hi. unfold gx, gy.
    rewrite (sumn_ext n _ (fun j => Rabs (tri_turn m t) / 2 * ((x i * hatx m t i) * (x j * hatx m t j) + (x i * haty m t i) * (x j * haty m t j)))).
    + rewrite sumn_scal, sumn_plus, !sumn_scal. ring.
    + intros j Hj. unfold kloc. ring.
Qed.
End Hats.

Section Quad.
Context {A : Type}.
Variable m : mesh ROps A.
Notation n := (length (m_points m)).
Context {X : Type}.
(** elements with their triangles and weights *)
Variable E : list X.
Variable tr : X -> tri.
Variable W : X -> R.
Hypothesis HE : forall x, In x E -> tri_in n (tr x) /\ tri_turn m (tr x) <> 0.
Variable val : nat -> nat -> R.
Hypothesis Hval : forall a b, (a < n)%nat -> (b < n)%nat -> val a b = suml E (fun e => kloc m (tr e) a b * W e).
Lemma quad_sum : forall x, quad n val x = suml E (fun e => tri_area m (tr e) * W e * (gx m (tr e) x * gx m (tr e) x + gy m (tr e) x * gy m (tr e) x)).
Proof.
  intros x. unfold quad.
  rewrite (sumn_ext n _ (fun i => sumn n (fun j => suml E (fun e => W e * (x i * kloc m (tr e) i j * x j))))).
  - rewrite (sumn_ext n _ (fun i => suml E (fun e => sumn n (fun j => W e * (x i * kloc m (tr e) i j * x j))))).
    + rewrite <- suml_sumn. apply suml_ext. intros e He. destruct (HE e He) as [H1 H2].
      rewrite (sumn_ext n _ (fun i => W e * sumn n (fun j => x i * kloc m (tr e) i j * x j))) by (intros; apply sumn_scal).
      rewrite sumn_scal, kloc_quad by auto. unfold tri_area. ring.
    + intros i Hi. symmetry. apply suml_sumn.
  - intros i Hi. apply sumn_ext. intros j Hj. rewrite Hval by auto.
    rewrite (suml_ext _ _ (fun e => W e * (x i * kloc m (tr e) i j * x j)) (fun e => (x i * x j) * (kloc m (tr e) i j * W e))) by (intros; ring).
    rewrite suml_scal. ring.
Qed.
Lemma rowsum_zero : forall a, (a < n)%nat -> sumn n (val a) = 0.
Proof.
  intros a Ha. rewrite (sumn_ext n _ (fun b => suml E (fun e => kloc m (tr e) a b * W e))) by (intros; auto).
  rewrite <- suml_sumn. apply suml_0. intros e He. destruct (HE e He) as [H1 H2]. rewrite sumn_scal_r, kloc_rowsum by auto. ring.
Qed.
End Quad.

(** sums over element lists *)
Lemma suml_seq_snd : forall X (l : list X) i (f : X -> R), suml (combine (seq i (length l)) l) (fun x => f (snd x)) = suml l f.
Proof. intros X l. induction l as [|x l IH]; intros i f; [reflexivity|]. cbn [length seq combine]. rewrite !suml_cons, IH. reflexivity. Qed.
Lemma suml_combine_fst : forall X Y (l : list X) (l' : list Y) (f : X -> R), length l = length l' -> suml (combine l l') (fun x => f (fst x)) = suml l f.
Proof. intros X Y l. induction l as [|x l IH]; intros [|y l'] f H; try discriminate H; [reflexivity|]. cbn [combine]. rewrite !suml_cons, IH by (cbn in H; lia). reflexivity. Qed.
Lemma combine_assoc_sum : forall X Y Z (l : list X) (ys : list Y) (zs : list Z) (P : X -> Z -> Prop) (f : X -> Y -> R) (g : X -> Y -> Z -> R),
  length ys = length l -> Forall2 P l zs -> (forall x y z, In x l -> P x z -> f x y = g x y z) ->
  suml (combine l ys) (fun xy => f (fst xy) (snd xy)) = suml (combine l (combine ys zs)) (fun w => g (fst w) (fst (snd w)) (snd (snd w))).
Proof.
  intros X Y Z l ys zs P f g HL H. revert ys HL. induction H as [|x z l zs H1 H2 IH]; intros ys HL K; [destruct ys; reflexivity|].
  destruct ys as [|y ys]; [discriminate HL|]. cbn [combine]. rewrite !suml_cons. cbn [fst snd]. f_equal; [apply K; cbn; auto|].
  apply IH; [cbn in HL; lia|]. intros; apply K; cbn; auto.
Qed.

Lemma suml_seq_mu : forall A (l : list (tri * A)) (mu pre mus : list R) (f : tri -> R -> R), length mus = length l -> mu = pre ++ mus ->
  suml (combine (seq (length pre) (length l)) l) (fun x => f (fst (snd x)) (vget mu (fst x))) = suml (combine (map fst l) mus) (fun w => f (fst w) (snd w)).
Proof.
  intros A l. induction l as [|[t p] l IH]; intros mu pre mus f HL HM; [reflexivity|]. destruct mus as [|u mus]; [discriminate HL|].
  cbn [length seq combine map fst]. rewrite !suml_cons. cbn [fst snd]. f_equal.
  - rewrite HM. unfold vget. rewrite app_nth2, Nat.sub_diag by lia. reflexivity.
  - rewrite <- (IH mu (pre ++ [u]) mus f); [|cbn in HL; lia|rewrite HM, <- app_assoc; reflexivity].
    rewrite app_length. cbn [length]. rewrite Nat.add_1_r. reflexivity.
Qed.
Section Cd.
Context {A : Type}.
Variable m : mesh ROps A.
Variable ps : list A.
Variable sigma : A -> R.
Notation n := (length (m_points m)).
Hypothesis ready : fem_ready m ps.
Hypothesis used : all_used m.
Lemma elements_ok : forall x, In x (elements m ps) -> tri_in n (fst (snd x)) /\ tri_turn m (fst (snd x)) <> 0.
Proof.
  clear used. destruct ready as [[W1 _] [_ [_ Hp]]]. intros x H. apply elements_in in H. apply nth_error_In in H. unfold proper in Hp. rewrite Forall_forall in *. split; auto.
Qed.
Lemma ready_len : length ps = length (m_tris m).
Proof. clear used. destruct ready as [[_ [W2 _]] [HP _]]. rewrite <- (F2_length _ _ _ _ _ HP). auto. Qed.
Lemma elements_len : length (combine (m_tris m) ps) = length (m_tris m).
Proof. clear used. rewrite combine_length, ready_len. lia. Qed.

Lemma cd_values : exists S, cd_getFemSystem ROps A sigma m = Ok S /\ valid_system S /\ sdim S = n /\ all_diag_touched (sA R S) /\
  (forall a b, (a < n)%nat -> (b < n)%nat -> value 0 (sA R S) a b = suml (elements m ps) (fun x => kloc m (fst (snd x)) a b * (sigma (snd (snd x)) * m_depth m))) /\
  (forall a, vget (sb R S) a = 0).
Proof.
  destruct (assemble_val m ps R 0 (fun c _ p x => x + c * sigma p * m_depth m) (fun _ _ x => Ok x) true (fun x => x)
    (fun _ p => sigma p * m_depth m) (fun _ => 0) (fun _ => True)) as [S [E [VS [L [_ [_ [DT [VM VB]]]]]]]]; auto.
  - intros. ring.
  - intros D p v. exists v. split; auto. split; auto. ring.
  - exists S. split; [exact E|]. split; auto. split; auto. split; auto. split; auto.
    intros a. unfold vget. destruct (Nat.lt_ge_cases a n) as [H|H].
    + rewrite VB by auto. apply suml_0. intros x _. unfold on_corner. destruct (Nat.ltb 0 _); ring.
    + apply nth_overflow. change (T ROps) with R in *. lia.
Qed.
Lemma cd_energy : exists S, cd_getFemSystem ROps A sigma m = Ok S /\ valid_system S /\ sdim S = n /\ all_diag_touched (sA R S) /\
  (forall x gs, Forall2 (gradient_of m x) (m_tris m) gs ->
     quad n (value 0 (sA R S)) x = m_depth m * sum_tris m (combine ps gs) (fun t pg => sigma (fst pg) * norm2 (snd pg) * tri_area m t)) /\
  (forall a, (a < n)%nat -> sumn n (value 0 (sA R S) a) = 0) /\ (forall a, vget (sb R S) a = 0).
Proof.
  destruct cd_values as [S [E [VS [L [DT [VM VB]]]]]]. exists S. split; auto. split; auto. split; auto. split; auto. split; [|split; auto].
  - intros x gs HG. rewrite (quad_sum m (elements m ps) (fun x => fst (snd x)) (fun x => sigma (snd (snd x)) * m_depth m) elements_ok _ VM).
    unfold sum_tris. rewrite <- suml_scal. unfold elements. rewrite <- elements_len.
    rewrite (suml_seq_snd _ (combine (m_tris m) ps) 0 (fun tp => tri_area m (fst tp) * (sigma (snd tp) * m_depth m) * (gx m (fst tp) x * gx m (fst tp) x + gy m (fst tp) x * gy m (fst tp) x))).
    apply (combine_assoc_sum _ _ _ (m_tris m) ps gs (gradient_of m x)
       (fun t p => tri_area m t * (sigma p * m_depth m) * (gx m t x * gx m t x + gy m t x * gy m t x))
       (fun t p g => m_depth m * (sigma p * norm2 g * tri_area m t))); auto; [apply ready_len|].
    intros t p g Ht Hg. destruct ready as [[W1 _] [_ [_ Hp]]]. unfold proper in Hp. rewrite Forall_forall in *.
    rewrite (grad_norm m t (W1 _ Ht) (Hp _ Ht) x g Hg). ring.
  - apply (rowsum_zero m (elements m ps) (fun x => fst (snd x)) (fun x => sigma (snd (snd x)) * m_depth m) elements_ok _ VM).
Qed.
End Cd.

(** ** Pinned nodes *)
Definition zero_at (id : nat) (x : nat -> R) : nat -> R := fun i => if Nat.eqb i id then 0 else x i.
Lemma dirichlet_quad : forall (S : rsys) (id : nat) (v : R) S', valid_system S -> (id < sdim S)%nat -> dDirichlet ROps S id v = Ok S' ->
  forall x, quad (sdim S) (value 0 (sA R S')) x = x id * x id + quad (sdim S) (value 0 (sA R S)) (zero_at id x).
Proof.
  intros S id v S' W Hid E x. apply valid_wf in W.
  destruct (dDirichlet_ok S id v W Hid) as [S'' [E' [W' [L [EN B]]]]]. rewrite E in E'; inversion E'; subst S''. fsent.
  unfold quad. rewrite <- (sumn_delta (sdim S) id (fun i => x i * x i)) by auto. rewrite <- sumn_plus. apply sumn_ext. intros i Hi.
  destruct (Nat.eqb_spec i id) as [Ei|Ei].
  - subst i. rewrite (sumn_single (sdim S) id); auto.
    + rewrite EN, Nat.eqb_refl by auto. rewrite sumn_0; [ring|]. intros j Hj. unfold zero_at. rewrite Nat.eqb_refl. ring.
    + intros j Hj Ej. rewrite EN, Nat.eqb_refl by auto. apply Nat.eqb_neq in Ej; rewrite Ej. ring.
  - rewrite Rplus_0_l. apply sumn_ext. intros j Hj. rewrite EN by auto. unfold zero_at. apply Nat.eqb_neq in Ei; rewrite Ei.
    destruct (Nat.eqb j id); ring.
Qed.
Lemma dirichlet_keeps : forall (S : rsys) (id : nat) (v : R) S', valid_system S -> (id < sdim S)%nat -> dDirichlet ROps S id v = Ok S' ->
  valid_system S' /\ sdim S' = sdim S /\ (all_diag_touched (sA R S) -> all_diag_touched (sA R S')).
Proof.
  intros S id v S' W Hid E. pose proof (valid_wf _ _ W) as WF.
  destruct (addDirichlet_exact ROps R 0 (fun a d => a * d) Rminus (fun d => d) S id v WF Hid) as [S'' [E' [W' [L [EN _]]]]].
  pose proof (eq_trans (eq_sym E') E) as K. inversion K; subst S''. clear K. apply wf_valid in W'. split; auto. split; auto.
  intros D i Hi. destruct W' as [_ [C' _]]. rewrite C', L in Hi. pose proof W as [_ [C _]].
  unfold touched. destruct (in_dec N.eq_dec (key i i) (map fst (elems (sA R S')))) as [I|I]; auto. exfalso.
  apply find_key_none in I. specialize (EN i i Hi Hi). unfold entry_opt, ukey in EN. rewrite Nat.min_id, Nat.max_id, I, Nat.eqb_refl in EN.
  destruct (Nat.eqb i id); [discriminate EN|]. symmetry in EN. apply find_key_none in EN. apply EN. apply D. lia.
Qed.
(** x^T A x is non-negative, and positive for a non-zero x that vanishes on ids *)
Definition psd_off (S : rsys) (ids : list nat) : Prop :=
  (forall x, 0 <= quad (sdim S) (value 0 (sA R S)) x) /\
  forall x, (forall i, In i ids -> x i = 0) -> (exists i, (i < sdim S)%nat /\ x i <> 0) -> 0 < quad (sdim S) (value 0 (sA R S)) x.
Lemma sq_nonneg : forall a : R, 0 <= a * a.
Proof. intros a. pose proof (Rle_0_sqr a). unfold Rsqr in H. auto. Qed.
Lemma sq_pos : forall a : R, a <> 0 -> 0 < a * a.
Proof. intros a H. apply Rsqr_pos_lt in H. unfold Rsqr in H. auto. Qed.
Lemma psd_step : forall S id v S' ids, valid_system S -> (id < sdim S)%nat -> dDirichlet ROps S id v = Ok S' -> psd_off S (id :: ids) -> psd_off S' ids.
Proof.
  intros S id v S' ids W Hid E [P1 P2]. pose proof (dirichlet_quad S id v S' W Hid E) as Q. destruct (dirichlet_keeps S id v S' W Hid E) as [_ [L _]].
  split; rewrite L.
  - intros x. rewrite Q. pose proof (P1 (zero_at id x)). pose proof (sq_nonneg (x id)). lra.
  - intros x Hx [i [Hi Nz]]. rewrite Q. destruct (Req_dec (x id) 0) as [Z|Z].
    + assert (0 < quad (sdim S) (value 0 (sA R S)) (zero_at id x)); [|pose proof (sq_nonneg (x id)); lra].
      apply P2.
      * intros j [<-|Hj]; unfold zero_at; [rewrite Nat.eqb_refl; auto|]. destruct (Nat.eqb j id); auto.
      * exists i. split; auto. unfold zero_at. destruct (Nat.eqb_spec i id); [congruence|auto].
    + pose proof (P1 (zero_at id x)). pose proof (sq_pos _ Z). lra.
Qed.
Lemma psd_all : forall l S S', valid_system S -> (forall p, In p l -> (fst p < sdim S)%nat) -> dirichlet_all S l = Ok S' -> psd_off S (map fst l) ->
  valid_system S' /\ sdim S' = sdim S /\ (all_diag_touched (sA R S) -> all_diag_touched (sA R S')) /\ posdef (sdim S') (value 0 (sA R S')).
Proof.
  induction l as [|[id v] l IH]; intros S S' W HI E HP; cbn [dirichlet_all] in E.
  - inversion E; subst. split; auto. split; auto. split; auto. intros x Hx. apply HP; auto. intros i [].
  - destruct (dDirichlet ROps S id v) as [S1|s|s|s] eqn:E1; cbn [bind] in E; try discriminate E.
    assert (Hid : (id < sdim S)%nat) by (apply (HI (id, v)); cbn; auto).
    destruct (dirichlet_keeps S id v S1 W Hid E1) as [W1 [L1 D1]].
    destruct (IH S1 S' W1) as [W2 [L2 [D2 P2]]]; auto.
    + intros p Hp. rewrite L1. apply HI. cbn; auto.
    + apply (psd_step S id v S1 (map fst l) W Hid E1 HP).
    + split; auto. split; [congruence|]. split; auto.
Qed.
Lemma dirichlet_runs : forall l S, valid_system S -> (forall p, In p l -> (fst p < sdim S)%nat) -> exists S', dirichlet_all S l = Ok S'.
Proof.
  induction l as [|[id v] l IH]; intros S W HI; cbn [dirichlet_all]; [eauto|].
  assert (Hid : (id < sdim S)%nat) by (apply (HI (id, v)); cbn; auto).
  destruct (dDirichlet_ok S id v (valid_wf _ _ W) Hid) as [S1 [E1 _]]. rewrite E1. cbn [bind].
  destruct (dirichlet_keeps S id v S1 W Hid E1) as [W1 [L1 _]]. apply IH; auto. intros p Hp. rewrite L1. apply HI. cbn; auto.
Qed.

(** ** Connected triangulations *)
Lemma gx_gy_zero_const : forall A (m : mesh ROps A) t x u v, tri_in (length (m_points m)) t -> tri_turn m t <> 0 -> gx m t x = 0 -> gy m t x = 0 ->
  is_corner u t -> is_corner v t -> x u = x v.
Proof.
  intros A m t x u v Hin HD Gx Gy Hu Hv. destruct (grad_hat m t Hin HD x) as [H1 H2]. rewrite Gx, Gy, px_P, py_P in *.
  assert (E1 : x (t1 t) = x (t0 t)) by lra. assert (E2 : x (t2 t) = x (t0 t)) by lra.
  destruct Hu as [->|[->| ->]], Hv as [->|[->| ->]]; congruence.
Qed.
Lemma linked_const : forall A (m : mesh ROps A) x u v, Forall (tri_in (length (m_points m))) (m_tris m) -> proper m ->
  (forall t, In t (m_tris m) -> gx m t x = 0 /\ gy m t x = 0) -> linked m u v -> x u = x v.
Proof.
  intros A m x u v W Hp HG L. induction L as [|u v w t L IH Ht Cv Cw]; auto. rewrite IH. unfold proper in Hp. rewrite Forall_forall in *.
  destruct (HG t Ht). apply (gx_gy_zero_const A m t x v w); auto; unfold is_corner; [destruct Cv as [H1|[H1|[H1|[]]]]|destruct Cw as [H1|[H1|[H1|[]]]]]; auto.
Qed.
Lemma suml_pos_zero : forall X (l : list X) f, (forall x, In x l -> 0 <= f x) -> suml l f = 0 -> forall x, In x l -> f x = 0.
Proof.
  intros X l f. induction l as [|y l IH]; intros H E x Hx; [destruct Hx|]. rewrite suml_cons in E. destruct Hx as [<-|Hx].
  - assert (0 <= f y) by (apply H; cbn; auto). assert (0 <= suml l f) by (apply suml_nonneg; intros; apply H; cbn; auto). lra.
  - apply IH; auto; [intros; apply H; cbn; auto|].
    assert (0 <= f y) by (apply H; cbn; auto). assert (0 <= suml l f) by (apply suml_nonneg; intros; apply H; cbn; auto). lra.
Qed.
Lemma elements_all : forall A (m : mesh ROps A) ps t, length ps = length (m_tris m) -> In t (m_tris m) -> exists x, In x (elements m ps) /\ fst (snd x) = t.
Proof.
  intros A m ps t L H. unfold elements. rewrite <- (combine_fst _ _ (m_tris m) ps L) in H. apply in_map_iff in H. destruct H as [tp [<- H]].
  assert (G : forall (l : list (tri * A)) i y, In y l -> exists x, In x (combine (seq i (length l)) l) /\ snd x = y).
  { induction l as [|z l IH]; intros i y []; [subst; exists (i, y); cbn; auto|]. destruct (IH (S i) y H0) as [x [H1 H2]]. exists x. cbn; auto. }
  destruct (G _ O tp H) as [x [H1 H2]]. exists x. rewrite combine_length, L, Nat.min_id in H1. split; auto. congruence.
Qed.
Section Pinned.
Context {A : Type}.
Variable m : mesh ROps A.
Variable ps : list A.
Notation n := (length (m_points m)).
Hypothesis ready : fem_ready m ps.
Variable W : nat * (tri * A) -> R.
Variable S : rsys.
Hypothesis VS : valid_system S.
Hypothesis LS : sdim S = n.
Hypothesis VM : forall a b, (a < n)%nat -> (b < n)%nat -> value 0 (sA R S) a b = suml (elements m ps) (fun x => kloc m (fst (snd x)) a b * W x).
Lemma energy_nonneg : (forall x, In x (elements m ps) -> 0 <= W x) -> forall x, 0 <= quad n (value 0 (sA R S)) x.
Proof.
  intros HW x. rewrite (quad_sum m (elements m ps) (fun x => fst (snd x)) W (elements_ok m ps ready) _ VM). apply suml_nonneg. intros e He.
  assert (0 <= tri_area m (fst (snd e))) by (unfold tri_area; pose proof (Rabs_pos (tri_turn m (fst (snd e)))); lra).
  apply Rmult_le_pos; [apply Rmult_le_pos; auto|].
  pose proof (sq_nonneg (gx m (fst (snd e)) x)). pose proof (sq_nonneg (gy m (fst (snd e)) x)). lra.
Qed.
Lemma energy_definite : (forall x, In x (elements m ps) -> 0 < W x) -> forall ids, pins m ids -> psd_off S ids.
Proof.
  intros HW ids HP. unfold psd_off. rewrite LS. split; [apply energy_nonneg; intros; left; auto|].
  intros x Hz [i [Hi Nz]].
  destruct (Rle_lt_or_eq_dec _ _ (energy_nonneg (fun e He => Rlt_le _ _ (HW e He)) x)) as [H|H]; auto. exfalso.
  rewrite (quad_sum m (elements m ps) (fun x => fst (snd x)) W (elements_ok m ps ready) _ VM) in H. symmetry in H.
  assert (Z : forall t, In t (m_tris m) -> gx m t x = 0 /\ gy m t x = 0).
  { intros t Ht. destruct (elements_all A m ps t (ready_len m ps ready) Ht) as [e [He <-]].
    assert (K0 : forall e0, In e0 (elements m ps) -> 0 <= tri_area m (fst (snd e0)) * W e0 * (gx m (fst (snd e0)) x * gx m (fst (snd e0)) x + gy m (fst (snd e0)) x * gy m (fst (snd e0)) x)).
    { intros e0 He0. assert (0 <= tri_area m (fst (snd e0))) by (unfold tri_area; pose proof (Rabs_pos (tri_turn m (fst (snd e0)))); lra).
      apply Rmult_le_pos; [apply Rmult_le_pos; auto; left; auto|].
      pose proof (sq_nonneg (gx m (fst (snd e0)) x)). pose proof (sq_nonneg (gy m (fst (snd e0)) x)). lra. }
    pose proof (suml_pos_zero _ _ _ K0 H e He) as K. cbn beta in K.
    destruct (elements_ok m ps ready e He) as [_ ND].
    assert (PA : 0 < tri_area m (fst (snd e))) by (unfold tri_area; pose proof (Rabs_pos_lt _ ND); lra).
    assert (PW : 0 < tri_area m (fst (snd e)) * W e) by (apply Rmult_lt_0_compat; auto).
    apply Rmult_integral in K. destruct K as [K|K]; [lra|].
    set (a := gx m (fst (snd e)) x) in *. set (b := gy m (fst (snd e)) x) in *.
    pose proof (sq_nonneg a). pose proof (sq_nonneg b). assert (a * a = 0) by lra. assert (b * b = 0) by lra.
    split; [destruct (Rmult_integral a a)|destruct (Rmult_integral b b)]; auto. }
  destruct (HP i Hi) as [u [Hu Lk]]. destruct ready as [[W1 _] [_ [_ Hp]]].
  apply Nz. rewrite <- (linked_const A m x u i W1 Hp Z Lk). apply Hz. auto.
Qed.
End Pinned.

Lemma elements_prop : forall A (m : mesh ROps A) ps x, In x (elements m ps) -> In (snd (snd x)) ps.
Proof. intros A m ps [i [t p]] H. unfold elements in H. apply in_combine_r in H. apply in_combine_r in H. exact H. Qed.
Lemma cd_nonneg : forall A (m : mesh ROps A) ps (sigma : A -> R) S, fem_ready m ps -> all_used m -> cd_getFemSystem ROps A sigma m = Ok S ->
  (forall p, In p ps -> 0 <= sigma p) -> 0 <= m_depth m -> forall x, 0 <= quad (sdim S) (value 0 (sA R S)) x.
Proof.
  intros A m ps sigma S R U E Hs Hd x. destruct (cd_values m ps sigma R U) as [S' [E' [VS [L [DT [VM VB]]]]]].
  rewrite E in E'. inversion E'; subst S'. rewrite L.
  apply (energy_nonneg m ps R (fun x => sigma (snd (snd x)) * m_depth m) S VM). intros e He.
  apply Rmult_le_pos; auto. apply Hs. eapply elements_prop; eauto.
Qed.
Lemma cd_pinned : forall A (m : mesh ROps A) ps (sigma : A -> R) (l : list (nat * R)), fem_ready m ps -> all_used m ->
  (forall p, In p ps -> 0 < sigma p) -> 0 < m_depth m -> (forall p, In p l -> (fst p < length (m_points m))%nat) -> pins m (map fst l) ->
  exists S S', cd_getFemSystem ROps A sigma m = Ok S /\ dirichlet_all S l = Ok S' /\ valid_system S' /\ sdim S' = length (m_points m) /\
    all_diag_touched (sA R S') /\ spd (sA R S').
Proof.
  intros A m ps sigma l R U Hs Hd Hl HP. destruct (cd_values m ps sigma R U) as [S [E [VS [L [DT [VM VB]]]]]].
  destruct (dirichlet_runs l S VS) as [S' E']; [intros p Hp; rewrite L; auto|].
  destruct (psd_all l S S' VS) as [V' [L' [D' P']]]; auto.
  - intros p Hp. rewrite L. auto.
  - apply (energy_definite m ps R (fun x => sigma (snd (snd x)) * m_depth m) S L VM); auto. intros e He.
    apply Rmult_lt_0_compat; auto. apply Hs. eapply elements_prop; eauto.
  - exists S, S'. split; auto. split; auto. split; auto. split; [congruence|]. split; auto. unfold spd.
    destruct V' as [_ [C _]]. unfold sdim in P'. rewrite <- C in P'. exact P'.
Qed.

(** ** Magnetostatics *)
Section Ms.
Context {A : Type}.
Variable m : mesh ROps A.
Variable ps : list A.
Variable curJ : A -> R.
Notation n := (length (m_points m)).
Hypothesis ready : fem_ready m ps.
Definition in_terms (e : rexpr) : Prop := Forall (fun t => (snd t < length (m_tris m))%nat) (terms ROps e).
Lemma ms_val_mu : forall mu, exists S, ms_surface ROps A curJ m = Ok S /\ valid_system S /\ length (sb _ S) = n /\
  (forall k v, In (k, v) (elems (sA _ S)) -> in_terms v) /\ Forall in_terms (sb _ S) /\
  (all_used m -> all_diag_touched (sA _ S)) /\
  (forall a b, (a < n)%nat -> (b < n)%nat -> ne_val (value (ne_zero ROps) (sA _ S) a b) mu =
     suml (elements m ps) (fun x => kloc m (fst (snd x)) a b * / vget mu (fst x))) /\
  (forall a, (a < n)%nat -> ne_val (nth a (sb _ S) (ne_zero ROps)) mu =
     suml (elements m ps) (fun x => on_corner a (fst (snd x)) (Rabs (tri_turn m (fst (snd x))) * (curJ (snd (snd x)) / 6)))).
Proof.
  intros mu. apply (assemble_val m ps rexpr (ne_zero ROps) (fun c id _ e => ne_add_term ROps e (c, id))
    (fun D p e => q <- div ROps (mul ROps D (curJ p)) (ofZ ROps 6) ;; Ok (ne_add_num ROps e q)) false (fun e => ne_val e mu)
    (fun id _ => / vget mu id) (fun p => curJ p / 6) in_terms); auto.
  - unfold ne_val, ne_zero. cbn. unfold suml. cbn. ring.
  - intros c id p v. unfold ne_val, ne_add_term. cbn [constant terms]. rewrite suml_app. unfold suml at 2. cbn [fold_right fst snd]. unfold Rdiv. ring.
  - intros D p v. rewrite Rdiv_ok by (cbn; lra). cbn [bind]. eexists. split; [reflexivity|]. split.
    + unfold ne_val, ne_add_num. cbn [constant terms]. cbn. field.
    + intros H. exact H.
  - unfold in_terms, ne_zero. cbn. constructor.
  - intros c id p v Hid H. unfold in_terms, ne_add_term in *. cbn [terms]. apply Forall_app. split; auto.
  - discriminate.
Qed.
Lemma value_eval : forall S mu a b, value 0 (sA R (sys_eval S mu)) a b = ne_val (value (ne_zero ROps) (sA _ S) a b) mu.
Proof.
  clear. intros S mu a b. unfold value, sys_eval. cbn [sA coo_eval elems]. rewrite (find_key_map _ _ (fun _ e => ne_val e mu)).
  destruct (find_key (elems (sA (nexpr ROps) S)) _); auto. unfold ne_val, ne_zero, suml. cbn. ring.
Qed.
(** the permeabilities of the triangles *)
Definition mu_vector (mu : list R) : Prop := length mu = length (m_tris m) /\ forall i, (i < length mu)%nat -> vget mu i <> 0.
Lemma in_terms_ok : forall mu e, mu_vector mu -> in_terms e -> ne_ok e mu.
Proof. clear. intros mu e [L H] K. unfold ne_ok, in_terms in *. eapply Forall_impl; [|exact K]. intros t Ht. cbn beta in *. split; [lia|apply H; lia]. Qed.
Lemma ms_surface_ok : exists S, ms_surface ROps A curJ m = Ok S /\ valid_system S /\ length (sb _ S) = n /\
  (forall k v, In (k, v) (elems (sA _ S)) -> in_terms v) /\ Forall in_terms (sb _ S) /\ (all_used m -> all_diag_touched (sA _ S)) /\
  forall mu, (forall a b, (a < n)%nat -> (b < n)%nat -> value 0 (sA R (sys_eval S mu)) a b = suml (elements m ps) (fun x => kloc m (fst (snd x)) a b * / vget mu (fst x))) /\
    (forall a, (a < n)%nat -> vget (sb R (sys_eval S mu)) a =
     suml (elements m ps) (fun x => on_corner a (fst (snd x)) (Rabs (tri_turn m (fst (snd x))) * (curJ (snd (snd x)) / 6)))).
Proof.
  destruct (ms_val_mu []) as [S [E [VS [L [QM [QB [DT _]]]]]]]. exists S. split; auto. split; auto. split; auto. split; auto. split; auto. split; auto.
  intros mu. destruct (ms_val_mu mu) as [S' [E' [_ [_ [_ [_ [_ [VM VB]]]]]]]]. rewrite E in E'. inversion E'; subst S'. split.
  - intros a b Ha Hb. rewrite value_eval. auto.
  - intros a Ha. rewrite <- VB by auto. unfold sys_eval, vget. cbn [sb].
    assert (Z : 0 = ne_val (ne_zero ROps) mu) by (unfold ne_val, ne_zero, suml; cbn; ring). rewrite Z at 1.
    apply (map_nth (fun e => ne_val e mu)).
Qed.
Lemma sum_on_corner : forall t c, tri_in n t -> tri_turn m t <> 0 -> sumn n (fun a => on_corner a t c) = 3 * c.
Proof.
  intros t c [I1 [I2 I3]] HD. destruct (turn_distinct m t HD) as [N1 [N2 N3]].
  assert (K : forall v, is_corner v t -> on_corner v t c = c).
  { intros v Hv. unfold on_corner. destruct (count_corner A m t v HD) as [[_ ->]|[H _]]; [reflexivity|contradiction]. }
  rewrite (sumn_three n _ (t0 t) (t1 t) (t2 t)); auto.
  - rewrite !K by (unfold is_corner; auto). ring.
  - intros i A1 A2 A3. unfold on_corner. destruct (count_corner A m t i HD) as [[[E|[E|E]] _]|[_ ->]]; try contradiction. reflexivity.
Qed.
Lemma load_total : sumn n (fun a => suml (elements m ps) (fun x => on_corner a (fst (snd x)) (Rabs (tri_turn m (fst (snd x))) * (curJ (snd (snd x)) / 6)))) =
  sum_tris m ps (fun t p => curJ p * tri_area m t).
Proof.
  rewrite <- suml_sumn. unfold sum_tris. rewrite <- (suml_seq_snd _ (combine (m_tris m) ps) 0 (fun tp => curJ (snd tp) * tri_area m (fst tp))).
  rewrite (elements_len m ps ready). apply suml_ext. intros x Hx. destruct (elements_ok m ps ready x Hx) as [H1 H2].
  rewrite sum_on_corner by auto. unfold tri_area. field.
Qed.
Lemma line_keeps : forall e s b b', Forall in_terms b -> line_load ROps A m e s b = Ok b' -> Forall in_terms b' /\ length b' = length b.
Proof.
  clear ready. intros e [[q1 q2] Jm] b b' H E. unfold line_load in E.
  destruct (get (m_points m) (fst e)) as [p1|s|s|s]; cbn [bind] in E; try discriminate E.
  destruct (get (m_points m) (snd e)) as [p2|s|s|s]; cbn [bind] in E; try discriminate E.
  destruct (pointSegmentDistance ROps p1 q1 q2) as [d1|s|s|s]; cbn [bind] in E; try discriminate E.
  destruct (pointSegmentDistance ROps p2 q1 q2) as [d2|s|s|s]; cbn [bind] in E; try discriminate E.
  destruct (div ROps (one ROps) (ofZ ROps 10)) as [te|s|s|s]; cbn [bind] in E; try discriminate E.
  destruct (ltb ROps d1 _ && ltb ROps d2 _); [|inversion E; subst; auto].
  destruct (distance ROps p1 p2) as [len|s|s|s]; cbn [bind] in E; try discriminate E.
  assert (G : forall i x b0 b1, Forall in_terms b0 -> get b0 i = Ok x -> set b0 i (ne_add_num ROps x (mul ROps len Jm)) = Ok b1 -> Forall in_terms b1 /\ length b1 = length b0).
  { intros i x b0 b1 F Gx St. unfold get in Gx. destruct (nth_error b0 i) as [y|] eqn:Ny; [|discriminate Gx]. inversion Gx; subst y.
    assert (Hi : (i < length b0)%nat) by (apply nth_error_Some; congruence). rewrite set_lt in St by auto. inversion St; subst. split; [|apply upd_length].
    rewrite Forall_forall in *. intros z Hz. apply In_upd in Hz. destruct Hz as [->|Hz]; auto. unfold in_terms, ne_add_num. cbn [terms]. apply F. eapply nth_error_In; eauto. }
  destruct (get b (fst e)) as [x|s|s|s] eqn:Ex; cbn [bind] in E; try discriminate E.
  destruct (set b (fst e) _) as [b1|s|s|s] eqn:Es; cbn [bind] in E; try discriminate E.
  destruct (get b1 (snd e)) as [x1|s|s|s] eqn:Ex1; cbn [bind] in E; try discriminate E.
  destruct (G _ _ _ _ H Ex Es) as [F1 L1]. destruct (G _ _ _ _ F1 Ex1 E) as [F2 L2]. split; auto. congruence.
Qed.
Lemma list_keeps : forall X (body : X -> list rexpr -> res (list rexpr)) l,
  (forall x b b', Forall in_terms b -> body x b = Ok b' -> Forall in_terms b' /\ length b' = length b) ->
  forall b b', Forall in_terms b -> forM_list l body b = Ok b' -> Forall in_terms b' /\ length b' = length b.
Proof.
  clear ready. intros X body l K. induction l as [|x l IH]; intros b b' H E; cbn [forM_list] in E; [inversion E; subst; auto|].
  destruct (body x b) as [b1|s|s|s] eqn:E1; cbn [bind] in E; try discriminate E.
  destruct (K _ _ _ H E1) as [F1 L1]. destruct (IH _ _ F1 E) as [F2 L2]. split; auto. congruence.
Qed.
Variable mag : A -> vec ROps.
Lemma ms_system : forall es S, ms_getFemSystem ROps A curJ mag m es = Ok S -> valid_system S /\ length (sb _ S) = n /\ (all_used m -> all_diag_touched (sA _ S)) /\
  forall mu, mu_vector mu -> sys_ok S mu /\ sdim (sys_eval S mu) = n /\
    (forall x gs, Forall2 (gradient_of m x) (m_tris m) gs ->
       quad n (value 0 (sA R (sys_eval S mu))) x = sum_tris m (combine mu gs) (fun t pg => norm2 (snd pg) * tri_area m t / fst pg)) /\
    (forall a, (a < n)%nat -> sumn n (value 0 (sA R (sys_eval S mu)) a) = 0) /\
    (forall a b, (a < n)%nat -> (b < n)%nat -> value 0 (sA R (sys_eval S mu)) a b = suml (elements m ps) (fun x => kloc m (fst (snd x)) a b * / vget mu (fst x))).
Proof.
  intros es S E. destruct ms_surface_ok as [S0 [E0 [VS [L [QM [QB [DT HV]]]]]]]. unfold ms_getFemSystem in E. rewrite E0 in E. cbn [bind] in E.
  destruct (mag_polygons ROps A mag _ _ _ _) as [mp|s|s|s]; cbn [bind] in E; try discriminate E.
  destruct (ms_magnets ROps A mag _ mp []) as [mgs|s|s|s]; cbn [bind] in E; try discriminate E.
  destruct (ms_segments ROps _ mgs) as [segs|s|s|s]; cbn [bind] in E; try discriminate E.
  destruct (Nat.ltb n 2); [discriminate E|].
  match type of E with bind ?f _ = _ => destruct f as [b|s|s|s] eqn:Eb end; cbn [bind] in E; try discriminate E. inversion E; subst S; clear E.
  apply (list_keeps _ _ es) in Eb; auto.
  2:{ intros x b0 b1 F Eb1. apply (list_keeps _ (line_load ROps A m x) segs) in Eb1; auto. intros s b2 b3 F2 E2. eapply line_keeps; eauto. }
  destruct Eb as [QB' LB]. cbn [sA sb]. change (T ROps) with R in *.
  split; [destruct VS as [X1 [X2 X3]]; split; [auto|cbn [sA sb]; rewrite LB; auto]|]. split; [lia|]. split; auto.
  intros mu HM. split.
  { split; cbn [sA sb]; [intros k e He; apply in_terms_ok; eauto|]. intros e He. rewrite Forall_forall in QB'. apply in_terms_ok; auto. }
  split; [unfold sdim, sys_eval; cbn [sb]; rewrite map_length; lia|].
  assert (VM : forall a c, (a < n)%nat -> (c < n)%nat -> value 0 (sA R (sys_eval (mkSys _ (sA _ S0) b) mu)) a c = suml (elements m ps) (fun x => kloc m (fst (snd x)) a c * / vget mu (fst x))).
  { apply (HV mu). }
  split; [|split; [|exact VM]].
  - intros x gs HG. rewrite (quad_sum m (elements m ps) (fun x => fst (snd x)) (fun x => / vget mu (fst x)) (elements_ok m ps ready) _ VM).
    unfold elements. destruct HM as [LM _]. rewrite <- (elements_len m ps ready).
    refine (eq_trans (suml_seq_mu A (combine (m_tris m) ps) mu [] mu (fun t u => tri_area m t * / u * (gx m t x * gx m t x + gy m t x * gy m t x)) _ eq_refl) _);
      [rewrite (elements_len m ps ready); auto|].
    rewrite (combine_fst _ _ (m_tris m) ps (ready_len m ps ready)). unfold sum_tris.
    apply (combine_assoc_sum _ _ _ (m_tris m) mu gs (gradient_of m x)
       (fun t u => tri_area m t * / u * (gx m t x * gx m t x + gy m t x * gy m t x)) (fun t u g => norm2 g * tri_area m t / u)); auto.
    intros t u g Ht Hg. destruct ready as [[W1 _] [_ [_ Hp]]]. unfold proper in Hp. rewrite Forall_forall in *.
    rewrite (grad_norm m t (W1 _ Ht) (Hp _ Ht) x g Hg). unfold Rdiv. ring.
  - apply (rowsum_zero m (elements m ps) (fun x => fst (snd x)) (fun x => / vget mu (fst x)) (elements_ok m ps ready) _ VM).
Qed.
(** no region of the drawing is magnetised *)
Lemma no_mag_polygons : forall rs mp, (forall r, In r rs -> exists p, nth_error (region_map (m_drawing m)) (snd r) = Some p /\ mag p = org) ->
  mag_polygons ROps A mag (region_map (m_drawing m)) (polygons (m_drawing m)) rs mp = Ok mp.
Proof.
  clear ready. induction rs as [|r rs IH]; intros mp H; cbn [mag_polygons]; auto.
  destruct (H r ltac:(cbn; auto)) as [p [E1 E2]]. unfold get. rewrite E1. cbn [bind]. rewrite E2.
  unfold vec_neqb. rewrite vec_eqb_R.
  replace (Rltb (dist org (vzero ROps)) eps9R) with true.
  - cbn [bind negb]. apply IH. intros; apply H; cbn; auto.
  - symmetry. apply Rltb_true. change (vzero ROps) with org. rewrite dist_self. apply eps9R_pos.
Qed.
Lemma ms_no_magnets : (2 <= n)%nat -> (forall r, In r (regions (m_drawing m)) -> exists p, nth_error (region_map (m_drawing m)) (snd r) = Some p /\ mag p = org) ->
  forall es, exists S, ms_getFemSystem ROps A curJ mag m es = Ok S /\
    forall mu, mu_vector mu -> sumn n (vget (sb R (sys_eval S mu))) = sum_tris m ps (fun t p => curJ p * tri_area m t).
Proof.
  intros Hn Hr es. destruct ms_surface_ok as [S0 [E0 [VS [L [QM [QB [DT HV]]]]]]]. exists S0.
  assert (E : ms_getFemSystem ROps A curJ mag m es = Ok S0).
  { unfold ms_getFemSystem. rewrite E0. cbn [bind]. rewrite no_mag_polygons by auto. cbn [bind ms_magnets]. unfold ms_segments. cbn [map_res bind concat].
    destruct (Nat.ltb_spec n 2); [lia|].
    assert (K : forall (l : list (nat * nat)) (b : list rexpr), forM_list l (fun e b => forM_list [] (line_load ROps A m e) b) b = Ok b).
    { induction l as [|e l IH]; intros b; cbn [forM_list bind]; auto. }
    rewrite K. cbn [bind]. destruct S0; reflexivity. }
  split; auto. intros mu HM. rewrite (sumn_ext n _ _ (proj2 (HV mu))). apply load_total.
Qed.
End Ms.
