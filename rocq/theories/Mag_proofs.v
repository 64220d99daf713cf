(** The physics of the magnetic potential that the assembled system defines. *)
From Coq Require Import String.
From Coq Require Import List Arith ZArith NArith Bool Lia Reals Lra Permutation.
From Verif Require Import Base SumR AlgebraModel AlgebraSpec Coo_proofs Algebra_bridge GeometryModel GeometrySpec Geometry_proofs DrawingModel DrawingSpec DrawingR_proofs
  MeshModel MeshSpec Adjacency_proofs Fem_proofs Energy_proofs MeshGeo_proofs Integral_proofs Magnet_proofs Pin_proofs DrawingR2_proofs Refine2_proofs Wellposed_proofs CotSpec Cot_proofs PhysSpec Phys_proofs MagSpec.
Import ListNotations.
Local Open Scope R_scope.

(** ** the matrix: that of a conductor whose conductivities are the inverse permeabilities *)
Definition by_tri {A} (m : mesh ROps A) (mu : list R) : mesh ROps R :=
  mkMesh (m_center m) (m_radius m) (m_epsilon m) 1 (m_points m) (m_marks m) (m_tris m) (seq 0 (length (m_tris m))) (mkD mu [] [] [] []).
Definition Km {A} (m : mesh ROps A) (mu : list R) : nat -> nat -> R := Kc (fun u => / u) (by_tri m mu) mu.
Lemma seq_props : forall (mu : list R) pre l, mu = pre ++ l -> Forall2 (fun a p => nth_error mu a = Some p) (seq (length pre) (length l)) l.
Proof.
  intros mu pre l. revert pre. induction l as [|u l IH]; intros pre E; cbn [length seq]; constructor.
  - rewrite E, nth_error_app2, Nat.sub_diag by lia. reflexivity.
  - specialize (IH (pre ++ [u])). rewrite app_length, Nat.add_1_r in IH. apply IH. rewrite <- app_assoc. exact E.
Qed.
Lemma bt_ready : forall A (m : mesh ROps A) ps mu, fem_ready m ps -> length mu = length (m_tris m) -> fem_ready (by_tri m mu) mu.
Proof.
  intros A m ps mu [[W1 [W2 W3]] [HP [HD Hp]]] L. split; [split; [exact W1|split; [apply seq_length|exact W3]]|]. split; [|split; [exact HD|exact Hp]].
  unfold properties, by_tri. cbn [m_attrs m_drawing region_map]. rewrite <- L. apply (seq_props mu [] mu eq_refl).
Qed.
Lemma Km_val : forall A (m : mesh ROps A) ps mu a b, fem_ready m ps -> length mu = length (m_tris m) ->
  suml (elements m ps) (fun x => kloc m (fst (snd x)) a b * / vget mu (fst x)) = Km m mu a b.
Proof.
  intros A m ps mu a b Rd L. unfold elements. rewrite <- (elements_len m ps Rd).
  refine (eq_trans (suml_seq_mu A (combine (m_tris m) ps) mu [] mu (fun t u => kloc m t a b * / u) _ eq_refl) _); [rewrite (elements_len m ps Rd); auto|].
  rewrite (combine_fst _ _ (m_tris m) ps (ready_len m ps Rd)). unfold Km, Kc.
  rewrite (suml_elements R (by_tri m mu) mu (fun tp => kloc (by_tri m mu) (fst tp) a b * (/ snd tp * m_depth (by_tri m mu)))) by exact L.
  apply suml_ext. intros [t u] _. cbn [fst snd]. change (m_depth (by_tri m mu)) with 1. change (kloc (by_tri m mu) t a b) with (kloc m t a b). ring.
Qed.
Lemma Km_sym : forall A (m : mesh ROps A) mu a b, Km m mu a b = Km m mu b a.
Proof. intros. apply Kc_sym. Qed.
Lemma Km_rows : forall A (m : mesh ROps A) ps mu, fem_ready m ps -> length mu = length (m_tris m) -> forall a, (a < length (m_points m))%nat -> sumn (length (m_points m)) (Km m mu a) = 0.
Proof. intros A m ps mu Rd L. exact (Kc_rows R (fun u => / u) (by_tri m mu) mu (bt_ready A m ps mu Rd L)). Qed.
Lemma Km_nonneg : forall A (m : mesh ROps A) ps mu, fem_ready m ps -> permeable m mu -> forall x, 0 <= quad (length (m_points m)) (Km m mu) x.
Proof.
  intros A m ps mu Rd [L H]. refine (Kc_nonneg R (fun u => / u) (by_tri m mu) mu (bt_ready A m ps mu Rd L) _ _); [|cbn; lra].
  intros u I. left. apply Rinv_0_lt_compat. auto.
Qed.
Lemma linked_bt : forall A (m : mesh ROps A) mu u v, linked m u v -> linked (by_tri m mu) u v.
Proof. intros A m mu u v H. induction H as [|u v w t H IH It I1 I2]; [constructor|]. eapply linked_step; eauto. Qed.
Lemma Km_definite : forall A (m : mesh ROps A) ps mu ids, fem_ready m ps -> all_used m -> permeable m mu -> pins m ids ->
  forall z, (forall i, In i ids -> z i = 0) -> (exists i, (i < length (m_points m))%nat /\ z i <> 0) -> 0 < quad (length (m_points m)) (Km m mu) z.
Proof.
  intros A m ps mu ids Rd Us [L H] Pn. refine (Kc_definite R (fun u => / u) (by_tri m mu) mu ids (bt_ready A m ps mu Rd L) Us _ _ _); [|cbn; lra|].
  - intros u I. apply Rinv_0_lt_compat. auto.
  - intros v Hv. destruct (Pn v Hv) as [u [Iu Lu]]. exists u. split; auto. apply linked_bt; auto.
Qed.
Lemma stores_quad : forall A (m : mesh ROps A) ps mu x w, fem_ready m ps -> all_used m -> length mu = length (m_tris m) -> (stores m mu x w <-> w = quad (length (m_points m)) (Km m mu) x).
Proof.
  intros A m ps mu x w Rd Us L. rewrite <- (dissipates_quad R (fun u => / u) (by_tri m mu) mu x w (bt_ready A m ps mu Rd L) Us). unfold stores, dissipates.
  assert (E : forall gs, m_depth (by_tri m mu) * sum_tris (by_tri m mu) (combine mu gs) (fun t pg => / fst pg * norm2 (snd pg) * tri_area (by_tri m mu) t) = sum_tris m (combine mu gs) (fun t ug => norm2 (snd ug) / fst ug * tri_area m t)).
  { intros gs. change (m_depth (by_tri m mu)) with 1. rewrite Rmult_1_l. unfold sum_tris. change (m_tris (by_tri m mu)) with (m_tris m). apply suml_ext. intros w' _. change (tri_area (by_tri m mu) (fst w')) with (tri_area m (fst w')). unfold Rdiv. ring. }
  split; intros [gs [F ->]]; exists gs; (split; [exact F|]); [rewrite E|rewrite <- E]; reflexivity.
Qed.
Lemma Km_mono : forall A (m : mesh ROps A) ps mu nu x, fem_ready m ps -> permeable m mu -> permeable m nu -> Forall2 Rle mu nu ->
  quad (length (m_points m)) (Km m nu) x <= quad (length (m_points m)) (Km m mu) x.
Proof.
  intros A m ps mu nu x Rd [L1 H1] [L2 H2] F.
  set (d := map (fun uv => / (/ fst uv - / snd uv)) (combine mu nu)).
  assert (E : forall a b, Km m mu a b = Km m nu a b + suml (combine (m_tris m) (combine mu nu)) (fun w => kloc m (fst w) a b * (/ fst (snd w) - / snd (snd w)))).
  { intros a b. unfold Km, Kc.
    rewrite (suml_elements R (by_tri m mu) mu (fun tp => kloc (by_tri m mu) (fst tp) a b * (/ snd tp * m_depth (by_tri m mu)))) by exact L1.
    rewrite (suml_elements R (by_tri m nu) nu (fun tp => kloc (by_tri m nu) (fst tp) a b * (/ snd tp * m_depth (by_tri m nu)))) by exact L2.
    change (m_tris (by_tri m mu)) with (m_tris m). change (m_tris (by_tri m nu)) with (m_tris m). change (m_depth (by_tri m mu)) with 1. change (m_depth (by_tri m nu)) with 1.
    clear - L1 L2. revert mu nu L1 L2. induction (m_tris m) as [|t l IH]; intros [|u mu] [|v nu] L1 L2; try discriminate L1; try discriminate L2; [unfold suml; cbn; ring|].
    cbn [combine]. rewrite !suml_cons. cbn [fst snd]. change (kloc (by_tri m (u :: mu)) t a b) with (kloc m t a b). change (kloc (by_tri m (v :: nu)) t a b) with (kloc m t a b).
    specialize (IH mu nu ltac:(cbn in L1; lia) ltac:(cbn in L2; lia)). 
    match type of IH with ?p = ?q => change (kloc m t a b * (/ u * 1) + p = kloc m t a b * (/ v * 1) + suml (combine l nu) (fun tp => kloc (by_tri m nu) (fst tp) a b * (/ snd tp * 1)) + (kloc m t a b * (/ u - / v) + suml (combine l (combine mu nu)) (fun w => kloc m (fst w) a b * (/ fst (snd w) - / snd (snd w))))) end.
    rewrite IH. ring. }
  assert (HE : forall w, In w (combine (m_tris m) (combine mu nu)) -> tri_in (length (m_points m)) (fst w) /\ tri_turn m (fst w) <> 0).
  { intros w I. destruct Rd as [[W1 _] [_ [_ Hp]]]. unfold proper in Hp. rewrite Forall_forall in *. destruct w as [t uv]. apply in_combine_l in I. cbn. auto. }
  assert (Q : quad (length (m_points m)) (Km m mu) x = quad (length (m_points m)) (Km m nu) x + quad (length (m_points m)) (fun a b => suml (combine (m_tris m) (combine mu nu)) (fun w => kloc m (fst w) a b * (/ fst (snd w) - / snd (snd w)))) x).
  { unfold quad. rewrite <- sumn_plus. apply sumn_ext. intros i _. rewrite <- sumn_plus. apply sumn_ext. intros j _. rewrite E. ring. }
  rewrite Q. rewrite (quad_sum m (combine (m_tris m) (combine mu nu)) fst (fun w => / fst (snd w) - / snd (snd w)) HE _ (fun _ _ _ _ => eq_refl)).
  match goal with |- _ <= _ + ?s => assert (0 <= s); [|lra] end. apply suml_nonneg. intros [t [u v]] I. cbn [fst snd].
  pose proof (in_combine_r _ _ _ _ I) as I2.
  assert (LE : u <= v /\ 0 < u).
  { split; [|apply H1; eapply in_combine_l; eauto]. clear - F I2. induction F as [|a b la lb H F IH]; [destruct I2|]. cbn in I2. destruct I2 as [E|I2]; [injection E as <- <-; auto|auto]. }
  apply Rmult_le_pos; [apply Rmult_le_pos; [unfold tri_area; pose proof (Rabs_pos (tri_turn m t)); lra|]|].
  - assert (/ v <= / u) by (apply Rinv_le_contravar; lra). lra.
  - pose proof (sq_nonneg (gx m t x)). pose proof (sq_nonneg (gy m t x)). lra.
Qed.

(** ** the load of the currents *)
Definition surf {A} (J : A -> R) (m : mesh ROps A) (ps : list A) (a : nat) : R :=
  suml (elements m ps) (fun x => on_corner a (fst (snd x)) (Rabs (tri_turn m (fst (snd x))) * (J (snd (snd x)) / 6))).
Lemma surf_lin : forall A (J1 J2 : A -> R) a b m ps i, surf (fun p => a * J1 p + b * J2 p) m ps i = a * surf J1 m ps i + b * surf J2 m ps i.
Proof.
  intros. unfold surf. rewrite <- !suml_scal, <- suml_plus. apply suml_ext. intros x _. unfold on_corner. destruct (Nat.ltb 0 _); [|ring]. unfold Rdiv. ring.
Qed.
Lemma surf_linkage : forall A (J : A -> R) m ps x, fem_ready m ps -> sumn (length (m_points m)) (fun i => x i * surf J m ps i) = linkage J m ps x.
Proof.
  intros A J m ps x Rd. unfold surf, linkage, sum_tris.
  rewrite <- (suml_elements A m ps (fun tp => J (snd tp) * ((x (t0 (fst tp)) + x (t1 (fst tp)) + x (t2 (fst tp))) / 3) * tri_area m (fst tp))) by (apply ready_len; auto).
  rewrite (sumn_ext _ _ (fun i => suml (elements m ps) (fun e => x i * on_corner i (fst (snd e)) (Rabs (tri_turn m (fst (snd e))) * (J (snd (snd e)) / 6))))) by (intros; rewrite <- suml_scal; reflexivity).
  rewrite <- suml_sumn. apply suml_ext. intros e He. destruct (elements_ok m ps Rd e He) as [[I1 [I2 I3]] HD]. set (t := fst (snd e)) in *. destruct (turn_distinct m t HD) as [N1 [N2 N3]].
  set (c := Rabs (tri_turn m t) * (J (snd (snd e)) / 6)).
  assert (K : forall v, is_corner v t -> on_corner v t c = c).
  { intros v Hv. unfold on_corner. destruct (count_corner A m t v HD) as [[_ ->]|[H _]]; [reflexivity|contradiction]. }
  rewrite (sumn_three (length (m_points m)) (fun i => x i * on_corner i t c) (t0 t) (t1 t) (t2 t)); auto.
  - rewrite !K by (unfold is_corner; auto). unfold c, tri_area. field.
  - intros i A1 A2 A3. unfold on_corner. destruct (count_corner A m t i HD) as [[[E|[E|E]] _]|[_ ->]]; try contradiction. cbn. ring.
Qed.
Lemma surf_nonneg : forall A (J : A -> R) m ps i, (forall p, In p ps -> 0 <= J p) -> 0 <= surf J m ps i.
Proof.
  intros A J m ps i H. unfold surf. apply suml_nonneg. intros e He. unfold on_corner. destruct (Nat.ltb 0 _); [|lra].
  destruct (in_elements_ps _ _ _ _ He) as [Ip _]. apply Rmult_le_pos; [apply Rabs_pos|]. specialize (H _ Ip). lra.
Qed.

(** ** the load of the magnets is linear in the magnetisation *)
Section MagLoad.
Context {A : Type}.
Variable m : mesh ROps A.
Notation n := (length (m_points m)).
Notation rm := (region_map (m_drawing m)).
Notation polys := (polygons (m_drawing m)).
(** every outline around every region point, magnetised or not *)
Definition push_all (x : pt) (id : nat) (mp : list (nat * list (list pt))) : list (nat * list (list pt)) :=
  fold_left (fun mp g => if poly_contains ROps g x then magmap_push ROps mp id g else mp) polys mp.
Definition outlines_from (rs : list (pt * nat)) (mp : list (nat * list (list pt))) : list (nat * list (list pt)) :=
  fold_left (fun mp r => push_all (fst r) (snd r) mp) rs mp.
Definition Mk (M : A -> pt) (k : nat) : pt := match nth_error rm k with Some p => M p | None => org end.
Definition keep (M : A -> pt) (kl : nat * list (list pt)) : bool := match vec_neqb ROps (Mk M (fst kl)) (vzero ROps) with Ok b => b | _ => false end.
Lemma push_front : forall mp id g lo, (id < lo)%nat -> ascending lo mp -> magmap_push ROps mp id g = (id, [g]) :: mp.
Proof. intros [|[k l] mp] id g lo L K; cbn [magmap_push]; auto. cbn in K. destruct (Nat.eqb_spec k id); [lia|]. destruct (Nat.ltb_spec id k); [auto|lia]. Qed.
Lemma filter_ascending : forall (f : nat * list (list pt) -> bool) mp lo, ascending lo mp -> ascending lo (filter f mp).
Proof.
  intros f. induction mp as [|[k l] mp IH]; intros lo K; cbn [filter]; auto. cbn in K. destruct K as [K1 K2]. destruct (f (k, l)); [cbn; auto|].
  apply (ascending_le _ lo (S k)); [lia|]. auto.
Qed.
Lemma push_kept : forall M mp id g lo, ascending lo mp -> (forall l, keep M (id, l) = true) -> filter (keep M) (magmap_push ROps mp id g) = magmap_push ROps (filter (keep M) mp) id g.
Proof.
  intros M. induction mp as [|[k l] mp IH]; intros id g lo K H; cbn [magmap_push filter]; [rewrite H; auto|]. cbn in K. destruct K as [K1 K2].
  destruct (Nat.eqb_spec k id) as [->|N].
  - cbn [filter]. rewrite !H. cbn [magmap_push]. rewrite Nat.eqb_refl. auto.
  - destruct (Nat.ltb_spec id k) as [Lt|Ge].
    + cbn [filter]. rewrite H. symmetry. change (if keep M (k, l) then (k, l) :: filter (keep M) mp else filter (keep M) mp) with (filter (keep M) ((k, l) :: mp)).
      apply (push_front _ id g (S id)); [lia|]. apply filter_ascending. cbn. split; [lia|auto].
    + cbn [filter]. destruct (keep M (k, l)); [|eapply IH; eauto]. cbn [magmap_push]. destruct (Nat.eqb_spec k id); [contradiction|]. destruct (Nat.ltb_spec id k); [lia|]. f_equal. eapply IH; eauto.
Qed.
Lemma push_unkept : forall M mp id g, (forall l, keep M (id, l) = false) -> filter (keep M) (magmap_push ROps mp id g) = filter (keep M) mp.
Proof.
  intros M. induction mp as [|[k l] mp IH]; intros id g H; cbn [magmap_push filter]; [rewrite H; auto|]. destruct (Nat.eqb_spec k id) as [->|N]; [cbn [filter]; rewrite !H; auto|].
  destruct (Nat.ltb id k); cbn [filter]; [rewrite H; auto|]. rewrite IH by auto. auto.
Qed.
Lemma push_all_ascending : forall x id mp, ascending 0 mp -> ascending 0 (push_all x id mp).
Proof. intros. apply (fold_listed polys x id mp H). Qed.
Lemma push_all_kept : forall M x id mp, ascending 0 mp -> (forall l, keep M (id, l) = true) -> filter (keep M) (push_all x id mp) = push_all x id (filter (keep M) mp).
Proof.
  intros M x id. unfold push_all. induction polys as [|g gs IH]; intros mp K H; cbn [fold_left]; auto. rewrite IH; auto.
  - destruct (poly_contains ROps g x); auto. rewrite (push_kept M mp id g 0); auto.
  - destruct (poly_contains ROps g x); auto. apply push_ascending; auto; lia.
Qed.
Lemma push_all_unkept : forall M x id mp, (forall l, keep M (id, l) = false) -> filter (keep M) (push_all x id mp) = filter (keep M) mp.
Proof.
  intros M x id. unfold push_all. induction polys as [|g gs IH]; intros mp H; cbn [fold_left]; auto. rewrite IH; auto. destruct (poly_contains ROps g x); auto. apply push_unkept; auto.
Qed.
Lemma mag_polygons_filter : forall M rs mp, (forall r, In r rs -> (snd r < length rm)%nat) -> ascending 0 mp ->
  mag_polygons ROps A M rm polys rs (filter (keep M) mp) = Ok (filter (keep M) (outlines_from rs mp)).
Proof.
  intros M. induction rs as [|r rs IH]; intros mp Hr K; cbn [mag_polygons outlines_from fold_left]; auto.
  destruct (nth_error rm (snd r)) as [p|] eqn:E; [|apply nth_error_None in E; pose proof (Hr r (or_introl eq_refl)); lia].
  rewrite (get_some _ _ _ _ E). cbn [bind]. destruct (neq_zero (M p)) as [b [Eb _]]. rewrite Eb. cbn [bind].
  assert (KB : forall l, keep M (snd r, l) = b) by (intros l; unfold keep, Mk; cbn [fst]; rewrite E, Eb; auto).
  specialize (IH (push_all (fst r) (snd r) mp) ltac:(intros; apply Hr; cbn; auto) (push_all_ascending _ _ _ K)).
  refine (eq_trans _ IH). f_equal. destruct b; symmetry; [apply push_all_kept; auto|apply push_all_unkept; auto].
Qed.
Definition outlines : list (nat * list (list pt)) := outlines_from (regions (m_drawing m)) [].
Lemma push_all_keys : forall x id mp k l, In (k, l) (push_all x id mp) -> k = id \/ exists l', In (k, l') mp.
Proof.
  intros x id. unfold push_all. induction polys as [|g gs IH]; intros mp k l H; cbn [fold_left] in H; [eauto|]. destruct (IH _ _ _ H) as [->|[l' H']]; auto.
  destruct (poly_contains ROps g x); eauto. clear - H'. induction mp as [|[k0 l0] mp IH]; cbn [magmap_push] in H'; [destruct H' as [E|[]]; injection E as <- <-; auto|].
  destruct (Nat.eqb_spec k0 id) as [->|N]; [destruct H' as [E|H']; [injection E as <- <-; auto|right; exists l'; cbn; auto]|].
  destruct (Nat.ltb id k0); [destruct H' as [E|H']; [injection E as <- <-; auto|eauto]|]. destruct H' as [E|H']; [injection E as <- <-; right; exists l0; cbn; auto|].
  destruct (IH H') as [->|[l2 H2]]; auto. right. exists l2. cbn. auto.
Qed.
Lemma push_all_polys : forall x id mp k l h, In (k, l) (push_all x id mp) -> In h l -> In h polys \/ exists l', In (k, l') mp /\ In h l'.
Proof.
  intros x id. unfold push_all. assert (G : forall gs, (forall g, In g gs -> In g polys) -> forall mp k l h, In (k, l) (fold_left (fun mp g => if poly_contains ROps g x then magmap_push ROps mp id g else mp) gs mp) -> In h l -> In h polys \/ exists l', In (k, l') mp /\ In h l').
  2: { apply G. auto. }
  induction gs as [|g gs IH]; intros Hg mp k l h H Hh; cbn [fold_left] in H; [eauto|]. destruct (IH ltac:(intros; apply Hg; cbn; auto) _ _ _ _ H Hh) as [?|[l' [H1 H2]]]; auto.
  destruct (poly_contains ROps g x); eauto. assert (L : listed (magmap_push ROps mp id g) k h) by (exists l'; auto). apply push_listed in L. destruct L as [L|[_ ->]]; auto. left. apply Hg. cbn. auto.
Qed.
Lemma outlines_keys : forall k l, In (k, l) outlines -> (exists r, In r (regions (m_drawing m)) /\ snd r = k) /\ forall h, In h l -> In h polys.
Proof.
  unfold outlines, outlines_from.
  assert (G : forall rs mp, (forall r, In r rs -> In r (regions (m_drawing m))) -> (forall k l, In (k, l) mp -> (exists r, In r (regions (m_drawing m)) /\ snd r = k) /\ forall h, In h l -> In h polys) ->
    forall k l, In (k, l) (fold_left (fun mp r => push_all (fst r) (snd r) mp) rs mp) -> (exists r, In r (regions (m_drawing m)) /\ snd r = k) /\ forall h, In h l -> In h polys).
  { induction rs as [|r rs IH]; intros mp Hr Hm k l H; cbn [fold_left] in H; [eauto|]. apply (IH _ ltac:(intros; apply Hr; cbn; auto)) in H; auto.
    intros k' l' H'. split.
    - destruct (push_all_keys _ _ _ _ _ H') as [->|[l2 H2]]; [exists r; split; auto; apply Hr; cbn; auto|apply (Hm _ _ H2)].
    - intros h Hh. destruct (push_all_polys _ _ _ _ _ _ H' Hh) as [?|[l2 [H2 H3]]]; auto. apply (proj2 (Hm _ _ H2) _ H3). }
  apply G; auto. intros k l [].
Qed.
(** the outlines that are made magnets, as often as they are entered *)
Definition entered (l : list (list pt)) : list (list pt) :=
  match l with [g] => repeat g (length g) | _ => filter (fun h => match is_magnet ROps h l with Ok b => b | _ => false end) l end.
Lemma entered_in : forall l g, In g (entered l) -> In g l.
Proof.
  intros l g H. destruct l as [|a [|b l]]; cbn [entered] in H; [destruct H|apply repeat_spec in H; left; auto|]. apply filter_In in H. tauto.
Qed.
Lemma ms_magnets_list : forall M mp acc, (forall k l, In (k, l) mp -> (k < length rm)%nat) ->
  ms_magnets ROps A M rm mp acc = Ok (acc ++ flat_map (fun kl => map (fun g => (g, Mk M (fst kl))) (entered (snd kl))) mp).
Proof.
  intros M. induction mp as [|[k l] mp IH]; intros acc H; cbn [ms_magnets flat_map fst snd]; [rewrite app_nil_r; auto|].
  assert (H' : forall k l, In (k, l) mp -> (k < length rm)%nat) by (intros; eapply H; right; eauto).
  destruct (nth_error rm k) as [p|] eqn:E; [|apply nth_error_None in E; pose proof (H k l (or_introl eq_refl)); lia].
  assert (MK : Mk M k = M p) by (unfold Mk; rewrite E; auto). rewrite MK. rewrite app_assoc.
  destruct l as [|g [|h l]].
  - cbn [pick_magnets bind map entered filter]. rewrite !app_nil_r. apply IH; auto.
  - destruct g as [|a g].
    + cbn [bind length repeat entered map]. rewrite !app_nil_r. apply IH; auto.
    + rewrite (get_some _ _ _ _ E). cbn [bind]. rewrite IH by auto. cbn [entered]. do 3 f_equal. clear. induction (length (a :: g)) as [|q Q]; cbn; congruence.
  - destruct (pick_filter (g :: h :: l) (g :: h :: l) []) as [gs [E1 E2]]. cbn [app] in E1. rewrite E1. cbn [bind].
    change (entered (g :: h :: l)) with (filter (fun h0 => match is_magnet ROps h0 (g :: h :: l) with Ok b => b | _ => false end) (g :: h :: l)). rewrite <- E2.
    destruct gs as [|a gs]; [cbn [bind map]; apply IH; auto|]. rewrite (get_some _ _ _ _ E). cbn [bind]. apply IH; auto.
Qed.
(** the frame of side i: its ends and its outward normal *)
Definition frame (eps : R) (g : list pt) (i : nat) : res (pt * pt * pt) :=
  bind (get g i) (fun p1 => bind (get g (Nat.modulo (i + 1) (length g))) (fun p2 => bind (normalize ROps (normal ROps (vminus ROps p2 p1))) (fun n => bind (midPoint ROps p1 p2) (fun mid => bind (div ROps (one ROps) (ofZ ROps 10)) (fun tenth =>
    Ok (p1, p2, if poly_contains ROps g (vadd ROps mid (vmul ROps (vmul ROps n eps) tenth)) then vmul ROps n (opp ROps (one ROps)) else n)))))).
Lemma segment_frame : forall eps g M i, ms_segment ROps eps g M i = bind (frame eps g i) (fun f => Ok (fst f, vcross ROps M (snd f))).
Proof.
  intros. unfold ms_segment, frame. destruct (get g i) as [p1|s|s|s]; cbn [bind]; auto. destruct (get g _) as [p2|s|s|s]; cbn [bind]; auto.
  destruct (normalize ROps _) as [nn|s|s|s]; cbn [bind]; auto. destruct (midPoint ROps p1 p2) as [mid|s|s|s]; cbn [bind]; auto. destruct (div ROps _ _) as [t|s|s|s]; cbn [bind]; auto.
Qed.
Definition frames (g : list pt) : list (pt * pt * pt) := match map_res (frame (m_epsilon m) g) (seq 0 (length g)) with Ok l => l | _ => [] end.
Lemma map_res_bind : forall X Y Z (f : X -> res Y) (h : Y -> Z) l, map_res (fun x => bind (f x) (fun y => Ok (h y))) l = bind (map_res f l) (fun ys => Ok (map h ys)).
Proof.
  intros. induction l as [|x l IH]; cbn [map_res bind map]; auto. destruct (f x) as [y|s|s|s]; cbn [bind]; auto. rewrite IH. destruct (map_res f l); cbn [bind map]; auto.
Qed.
Lemma map_res_ext : forall X Y (f h : X -> res Y) l, (forall x, f x = h x) -> map_res f l = map_res h l.
Proof. intros X Y f h l H. induction l as [|x l IH]; cbn [map_res]; auto. rewrite H, IH. auto. Qed.
Lemma segments_frames : forall g M, map_res (ms_segment ROps (m_epsilon m) g M) (seq 0 (length g)) = Ok (map (fun f => (fst f, vcross ROps M (snd f))) (frames g)).
Proof.
  intros g M. rewrite (map_res_ext _ _ _ _ _ (segment_frame (m_epsilon m) g M)). rewrite map_res_bind. unfold frames.
  destruct (magnet_segments (m_epsilon m) g M) as [ss [E _]]. rewrite (map_res_ext _ _ _ _ _ (segment_frame (m_epsilon m) g M)), map_res_bind in E.
  destruct (map_res (frame (m_epsilon m) g) (seq 0 (length g))); cbn [bind] in *; auto; discriminate E.
Qed.
(** what edge e gets at node i from the magnetisations M *)
Definition mload (es : list (nat * nat)) (M : A -> pt) (i : nat) : R :=
  suml es (fun e => suml outlines (fun kl => suml (entered (snd kl)) (fun g => suml (frames g) (fun f => share m i e (fst f, vcross ROps (Mk M (fst kl)) (snd f)))))).
Lemma Mk_mix : forall a b M1 M2 k, Mk (fun p => mix a b (M1 p) (M2 p)) k = mix a b (Mk M1 k) (Mk M2 k).
Proof. intros. unfold Mk. destruct (nth_error rm k); auto. unfold mix, org. cbn. f_equal; ring. Qed.
Lemma share_lin : forall i e s a b u v w, share m i e (s, vcross ROps (mix a b u v) w) = a * share m i e (s, vcross ROps u w) + b * share m i e (s, vcross ROps v w).
Proof. intros. unfold share. change (hit m e (s, vcross ROps (mix a b u v) w)) with (hit m e (s, 0)). change (hit m e (s, vcross ROps u w)) with (hit m e (s, 0)). change (hit m e (s, vcross ROps v w)) with (hit m e (s, 0)).
  generalize (hit m e (s, 0)), (edge_length m e), (delta i (fst e) + delta i (snd e)). intros h l d. unfold vcross, mix, px, py. cbn. ring.
Qed.
Lemma suml_lin : forall X (l : list X) a b f g h, (forall x, In x l -> f x = a * g x + b * h x) -> suml l f = a * suml l g + b * suml l h.
Proof. intros X l a b f g h H. rewrite <- !suml_scal, <- suml_plus. apply suml_ext. auto. Qed.
Lemma mload_lin : forall es a b M1 M2 i, mload es (fun p => mix a b (M1 p) (M2 p)) i = a * mload es M1 i + b * mload es M2 i.
Proof.
  intros. unfold mload. apply suml_lin. intros e _. apply suml_lin. intros kl _. apply suml_lin. intros g _. apply suml_lin. intros f _. rewrite Mk_mix. apply share_lin.
Qed.
Lemma suml_flat : forall X Y (f : X -> list Y) h l, suml (flat_map f l) h = suml l (fun x => suml (f x) h).
Proof. intros. induction l as [|x l IH]; cbn [flat_map]; [reflexivity|]. rewrite suml_app, suml_cons, IH. auto. Qed.
Lemma suml_filter0 : forall X (f : X -> bool) h l, (forall x, In x l -> f x = false -> h x = 0) -> suml (filter f l) h = suml l h.
Proof.
  intros X f h l H. induction l as [|x l IH]; auto. rewrite suml_filter_step, suml_cons, IH by (intros; apply H; cbn; auto). destruct (f x) eqn:E; auto. rewrite (H x (or_introl eq_refl) E). auto.
Qed.
Lemma segs_flat : forall (mgs : list (list pt * pt)) (sss : list (list (pt * pt * R))), Forall2 (fun gm ss => map_res (ms_segment ROps (m_epsilon m) (fst gm) (snd gm)) (seq 0 (length (fst gm))) = Ok ss) mgs sss ->
  concat sss = flat_map (fun gm => map (fun f => (fst f, vcross ROps (snd gm) (snd f))) (frames (fst gm))) mgs.
Proof.
  intros mgs sss F. induction F as [|gm ss mgs sss E F IH]; cbn [concat flat_map]; auto. rewrite IH. f_equal.
  pose proof (eq_trans (eq_sym E) (segments_frames (fst gm) (snd gm))) as Q. injection Q as Q. auto.
Qed.
End MagLoad.

(** ** the equations of the potential *)
Lemma ms_all : forall A (m : mesh ROps A) ps (J : A -> R) (M : A -> pt) es, fem_ready m ps -> (2 <= length (m_points m))%nat -> drawing_ok m -> outlines_solid m -> node_pairs m es -> clear_cut M m ->
  exists S, ms_getFemSystem ROps A J M m es = Ok S /\ forall mu i, (i < length (m_points m))%nat -> vget (sb R (sys_eval S mu)) i = surf J m ps i + mload m es M i.
Proof.
  intros A m ps J M es Rd Hn Dr Ol Np CC. set (mgs := flat_map (fun kl => map (fun g => (g, Mk m M (fst kl))) (entered (snd kl))) (filter (keep m M) (outlines m))).
  assert (DR : forall r, In r (regions (m_drawing m)) -> (snd r < length (region_map (m_drawing m)))%nat) by (unfold drawing_ok in Dr; rewrite Forall_forall in Dr; auto).
  assert (E1 : mag_polygons ROps A M (region_map (m_drawing m)) (polygons (m_drawing m)) (regions (m_drawing m)) [] = Ok (filter (keep m M) (outlines m))) by (apply (mag_polygons_filter m M (regions (m_drawing m)) []); cbn; auto).
  assert (KL : forall k l, In (k, l) (filter (keep m M) (outlines m)) -> In (k, l) (outlines m)) by (intros k l I; apply filter_In in I; tauto).
  assert (E2 : ms_magnets ROps A M (region_map (m_drawing m)) (filter (keep m M) (outlines m)) [] = Ok mgs).
  { rewrite ms_magnets_list; [reflexivity|]. intros k l I. destruct (proj1 (outlines_keys m k l (KL _ _ I))) as [r [Ir <-]]. auto. }
  assert (FS : Forall (fun gm : list pt * pt => solid (fst gm)) mgs).
  { rewrite Forall_forall. intros gm I. apply in_flat_map in I. destruct I as [[k l] [I1 I2]]. cbn [snd] in I2. apply in_map_iff in I2. destruct I2 as [g [<- I2]]. cbn [fst].
    apply Ol. apply (proj2 (outlines_keys m k l (KL _ _ I1))). apply entered_in; auto. }
  destruct (ms_load m ps J M _ mgs es Rd Hn E1 E2 FS Np) as [S0 [S [sss [E0 [ES [_ [F2 V]]]]]]].
  exists S. split; auto. intros mu i Hi. rewrite V by auto. destruct (ms_surface_ok m ps J Rd) as [S1 [E0' [_ [_ [_ [_ [_ HV]]]]]]]. rewrite E0 in E0'. injection E0' as <-.
  rewrite (proj2 (HV mu)) by auto. apply f_equal2; [reflexivity|]. unfold mload. apply suml_ext. intros e _. refine (eq_trans (f_equal (fun l => suml l (share m i e)) (segs_flat m mgs sss F2)) _). rewrite suml_flat. unfold mgs. rewrite suml_flat.
  rewrite suml_filter0.
  - apply suml_ext. intros [k l] _. cbn [fst snd]. rewrite suml_map. apply suml_ext. intros g _. cbn [fst snd]. rewrite suml_map. reflexivity.
  - intros [k l] I Hk. rewrite suml_map. apply suml_0. intros g _. cbn [fst snd]. rewrite suml_map. apply suml_0. intros f _.
    destruct (proj1 (outlines_keys m k l I)) as [r [Ir Er]]. cbn [fst]. 
    destruct (nth_error (region_map (m_drawing m)) k) as [p|] eqn:Ep; [|apply nth_error_None in Ep; specialize (DR _ Ir); lia].
    assert (Z : M p = org).
    { subst k. destruct (CC r p Ir Ep) as [Z|Z]; auto. exfalso. unfold keep, Mk in Hk. cbn [fst] in Hk. rewrite Ep in Hk. destruct (neq_zero (M p)) as [b [Eb Hb]]. rewrite Eb in Hk. subst b. apply Hb in Z. discriminate. }
    unfold Mk. rewrite Ep, Z. unfold share, vcross, org. cbn. ring.
Qed.
Lemma no_magnets_clear : forall A (M : A -> pt) (m : mesh ROps A), no_magnets M m -> clear_cut M m.
Proof. intros A M m H r p I E. destruct (H r I) as [q [E1 E2]]. left. congruence. Qed.
(** x a = x b = x c = 0, and every other row holds *)
Definition in_balance {A} (J : A -> R) (M : A -> pt) (m : mesh ROps A) (ps : list A) (es : list (nat * nat)) (mu : list R) (a b c : nat) (x : nat -> R) : Prop :=
  x a = 0 /\ x b = 0 /\ x c = 0 /\ forall i, (i < length (m_points m))%nat -> i <> a -> i <> b -> i <> c -> act (length (m_points m)) (Km m mu) x i = surf J m ps i + mload m es M i.
Lemma potential_iff : forall A (J : A -> R) (M : A -> pt) (m : mesh ROps A) ps es mu a b c x, fem_ready m ps -> all_used m -> (2 <= length (m_points m))%nat -> drawing_ok m -> outlines_solid m -> node_pairs m es -> rim m a b c ->
  permeabilities m mu -> clear_cut M m -> (potential J M m es mu x <-> in_balance J M m ps es mu a b c x).
Proof.
  intros A J M m ps es mu a b c x Rd Us Hn Dr Ol Np [Fa [ND [La [Lb Lc]]]] [LM PM] CC.
  destruct (ms_all A m ps J M es Rd Hn Dr Ol Np CC) as [S [E V]]. destruct (ms_system m ps J Rd M es S E) as [VS [L [DT HS]]].
  assert (MV : mu_vector m mu). { split; auto. intros i Hi. apply PM. unfold vget. apply nth_In. lia. }
  destruct (HS mu MV) as [SK [SD [_ [_ VM]]]]. destruct (infinite_solutions A m S a b c mu Fa ND La Lb Lc VS L SK) as [S' [E' [_ [_ [_ [_ [_ SOL]]]]]]].
  assert (RE : forall i, (i < length (m_points m))%nat -> (row_eq (sys_eval S mu) x i <-> act (length (m_points m)) (Km m mu) x i = surf J m ps i + mload m es M i)).
  { intros i Hi. unfold row_eq. rewrite SD, V by auto. unfold act. rewrite (sumn_ext _ _ (fun j => Km m mu i j * x j)); [reflexivity|]. intros j Hj. rewrite VM by auto. rewrite (Km_val A m ps mu i j Rd LM). reflexivity. }
  split.
  - intros [T [T' [Q1 [Q2 Q3]]]]. rewrite E in Q1. injection Q1 as <-. rewrite E' in Q2. injection Q2 as <-. apply SOL in Q3. destruct Q3 as [Xa [Xb [Xc X]]]. split; auto. split; auto. split; auto.
    intros i Hi N1 N2 N3. apply RE; auto.
  - intros [Xa [Xb [Xc X]]]. exists S, S'. split; auto. split; auto. apply SOL. split; auto. split; auto. split; auto. intros i Hi N1 N2 N3. apply RE; auto.
Qed.
Lemma rim_three : forall A (m : mesh ROps A) a b c, rim m a b c -> (2 <= length (m_points m))%nat.
Proof.
  intros A m a b c [_ [ND [La [Lb Lc]]]]. inversion ND as [|? ? N1 ND1]; subst. inversion ND1 as [|? ? N2 _]; subst. cbn in N1, N2. assert (a <> b) by intuition. lia.
Qed.
Lemma laid_iff : forall A (J : A -> R) (M : A -> pt) (m : mesh ROps A) ps es mu a b c x, laid_out m ps es a b c -> permeabilities m mu -> clear_cut M m ->
  (potential J M m es mu x <-> in_balance J M m ps es mu a b c x).
Proof. intros A J M m ps es mu a b c x [Rd [Us [Dr [Ol [Np Ri]]]]] Pm CC. apply potential_iff; auto. eapply rim_three; eauto. Qed.
Lemma permeable_permeabilities : forall A (m : mesh ROps A) mu, permeable m mu -> permeabilities m mu.
Proof. intros A m mu [L H]. split; auto. intros u I. specialize (H u I). lra. Qed.
Lemma mload_none : forall A (m : mesh ROps A) es M i, no_magnets M m -> mload m es M i = 0.
Proof.
  intros A m es M i H. unfold mload. apply suml_0. intros e _. apply suml_0. intros [k l] I. apply suml_0. intros g _. apply suml_0. intros f _. cbn [fst].
  destruct (proj1 (outlines_keys m k l I)) as [r [Ir <-]]. destruct (H r Ir) as [p [E1 E2]]. unfold Mk. rewrite E1, E2. unfold share, vcross, org. cbn. ring.
Qed.
(** ** without magnets *)
Section Currents.
Context {A : Type}.
Variables (m : mesh ROps A) (ps : list A) (es : list (nat * nat)) (a b c : nat) (M : A -> pt).
Hypothesis lo : laid_out m ps es a b c.
Hypothesis nm : no_magnets M m.
Notation n := (length (m_points m)).
Lemma currents_iff : forall J mu x, permeabilities m mu -> (potential J M m es mu x <-> x a = 0 /\ x b = 0 /\ x c = 0 /\ forall i, (i < n)%nat -> i <> a -> i <> b -> i <> c -> act n (Km m mu) x i = surf J m ps i).
Proof.
  intros J mu x Pm. rewrite (laid_iff A J M m ps es mu a b c x lo Pm (no_magnets_clear A M m nm)). unfold in_balance.
  split; intros [H1 [H2 [H3 H4]]]; (split; [auto|split; [auto|split; [auto|]]]); intros i Hi N1 N2 N3; specialize (H4 i Hi N1 N2 N3); rewrite (mload_none A m es M i nm) in *; lra.
Qed.
Lemma test_with : forall J mu x z, permeabilities m mu -> potential J M m es mu x -> z a = 0 -> z b = 0 -> z c = 0 -> sumn n (fun i => z i * act n (Km m mu) x i) = linkage J m ps z.
Proof.
  intros J mu x z Pm H Za Zb Zc. apply currents_iff in H; auto. destruct H as [_ [_ [_ H]]]. rewrite <- surf_linkage by apply lo. apply sumn_ext. intros i Hi.
  destruct (Nat.eq_dec i a) as [->|Na]; [rewrite Za; ring|]. destruct (Nat.eq_dec i b) as [->|Nb]; [rewrite Zb; ring|]. destruct (Nat.eq_dec i c) as [->|Nc]; [rewrite Zc; ring|]. rewrite H by auto. reflexivity.
Qed.
Lemma rim_zero : forall J mu x, permeabilities m mu -> potential J M m es mu x -> x a = 0 /\ x b = 0 /\ x c = 0.
Proof. intros J mu x Pm H. apply currents_iff in H; auto. tauto. Qed.
Lemma linkage_lin : forall J p q x y, linkage J m ps (fun v => p * x v + q * y v) = p * linkage J m ps x + q * linkage J m ps y.
Proof. intros. unfold linkage, sum_tris. rewrite <- !suml_scal, <- suml_plus. apply suml_ext. intros [t pp] _. cbn [fst snd]. field. Qed.
Lemma co_energy : forall J mu x y, permeabilities m mu -> potential J M m es mu x -> y a = 0 -> y b = 0 -> y c = 0 ->
  quad n (Km m mu) y / 2 - linkage J m ps y = quad n (Km m mu) x / 2 - linkage J m ps x + quad n (Km m mu) (fun v => y v - x v) / 2.
Proof.
  intros J mu x y Pm H Ya Yb Yc. destruct (rim_zero J mu x Pm H) as [Xa [Xb Xc]].
  rewrite (quad_ext n (Km m mu) y (fun v => x v + (y v - x v))) by (intros; ring). rewrite (quad_add n (Km m mu) (Km_sym A m mu)).
  rewrite (test_with J mu x (fun v => y v - x v) Pm H) by (cbn beta; rewrite ?Xa, ?Xb, ?Xc, ?Ya, ?Yb, ?Yc; ring).
  assert (E : linkage J m ps (fun v => y v - x v) = linkage J m ps y - linkage J m ps x).
  { rewrite <- (Rmult_1_l (linkage J m ps y)). replace (1 * linkage J m ps y - linkage J m ps x) with (1 * linkage J m ps y + (-1) * linkage J m ps x) by ring. rewrite <- linkage_lin.
    unfold linkage, sum_tris. apply suml_ext. intros w _. field. }
  rewrite E. field.
Qed.
Lemma energy_linkage : forall J mu x, permeabilities m mu -> potential J M m es mu x -> quad n (Km m mu) x = linkage J m ps x.
Proof. intros J mu x Pm H. destruct (rim_zero J mu x Pm H) as [Xa [Xb Xc]]. rewrite quad_act. apply test_with; auto. Qed.
End Currents.
Lemma Km_off : forall A (m : mesh ROps A) ps mu, fem_ready m ps -> length mu = length (m_tris m) -> reluctances_nonneg m mu -> forall a b, a <> b -> Km m mu a b <= 0.
Proof.
  intros A m ps mu Rd L H a b N. unfold Km. rewrite (Kc_off R (fun u => / u) (by_tri m mu) mu a b (bt_ready A m ps mu Rd L) N). specialize (H a b N).
  change (m_depth (by_tri m mu)) with 1. change (m_tris (by_tri m mu)) with (m_tris m). change (opposite (by_tri m mu)) with (opposite m). lra.
Qed.
Lemma acute_reluctances : forall A (m : mesh ROps A) ps mu, fem_ready m ps -> permeable m mu -> never_obtuse m -> reluctances_nonneg m mu.
Proof.
  intros A m ps mu Rd [L H] NO. refine (acute_cotangents R (fun u => / u) (by_tri m mu) mu (bt_ready A m ps mu Rd L) NO _). intros u I. left. apply Rinv_0_lt_compat. auto.
Qed.
Lemma linkage_mono : forall A (J : A -> R) (m : mesh ROps A) ps x y, fem_ready m ps -> (forall p, In p ps -> 0 <= J p) -> (forall v, x v <= y v) -> linkage J m ps x <= linkage J m ps y.
Proof.
  intros A J m ps x y Rd HJ H. unfold linkage, sum_tris. apply suml_le_in. intros [t p] I. cbn [fst snd]. apply in_combine_r in I.
  apply Rmult_le_compat_r; [unfold tri_area; pose proof (Rabs_pos (tri_turn m t)); lra|]. apply Rmult_le_compat_l; [auto|]. pose proof (H (t0 t)). pose proof (H (t1 t)). pose proof (H (t2 t)). lra.
Qed.
(** ** similar meshes *)
Lemma far_scaled : forall k f, similarity k f -> f org = org -> forall (pts : list pt) j i (s s' : nat * R * (nat * R) * (nat * R)),
  let body pts := fun i (s : nat * T ROps * (nat * T ROps) * (nat * T ROps)) => bind (get pts i) (fun p => bind (distance ROps p (vzero ROps)) (fun d => Ok (far_step ROps i d s))) in
  s' = (fst (fst (fst s)), k * snd (fst (fst s)), (fst (snd (fst s)), k * snd (snd (fst s))), (fst (snd s), k * snd (snd s))) ->
  bind (forM_from j i (body (map f pts)) s') (fun s => let '(a, b, c) := s in Ok (fst a, fst b, fst c)) = bind (forM_from j i (body pts) s) (fun s => let '(a, b, c) := s in Ok (fst a, fst b, fst c)).
Proof.
  intros k f [Hk Hd] Ho pts j. induction j as [|j IH]; intros i s s' body E; cbn [forM_from bind].
  - subst s'. destruct s as [[[a da] [b db]] [c dc]]. reflexivity.
  - unfold body at 1 3. unfold get. rewrite nth_error_map. destruct (nth_error pts i) as [p|]; cbn [option_map bind]; auto. rewrite !distance_R. cbn [bind]. apply IH. subst s'.
    change (vzero ROps) with org. rewrite <- Ho at 1. rewrite Hd. set (d := dist p org). destruct s as [[[a da] [b db]] [c dc]]. cbn [fst snd]. unfold far_step, gtb. cbn [fst snd ltb ROps].
    assert (SC : forall u v, Rltb (k * u) (k * v) = Rltb u v).
    { intros u v. unfold Rltb. destruct (Rlt_dec (k * u) (k * v)) as [L|L], (Rlt_dec u v) as [L'|L']; auto; exfalso; [apply L'; apply Rmult_lt_reg_l in L; auto|apply L; apply Rmult_lt_compat_l; auto]. }
    rewrite !SC. destruct (Rltb da d); [reflexivity|]. destruct (Rltb db d); [reflexivity|]. destruct (Rltb dc d); reflexivity.
Qed.
Lemma rim_carried : forall A k f (m : mesh ROps A) a b c, similarity k f -> f org = org -> rim m a b c -> rim (carried f m) a b c.
Proof.
  intros A k f m a b c Sm Ho [F [ND L]]. unfold rim, carried. cbn [m_points]. rewrite map_length. split; auto. rewrite <- F. unfold farthest, forM_up. rewrite map_length.
  apply (far_scaled k f Sm Ho). cbn [fst snd]. change (zero ROps) with 0. rewrite Rmult_0_r. reflexivity.
Qed.
Lemma laid_carried : forall A k f (m : mesh ROps A) ps es a b c, similarity k f -> f org = org -> laid_out m ps es a b c -> laid_out (carried f m) ps es a b c.
Proof.
  intros A k f m ps es a b c Sm Ho [Rd [Us [Dr [Ol [Np Ri]]]]]. split; [apply (carried_ready k f Sm m); auto|]. split; [unfold all_used; rewrite carried_len; exact Us|]. split; [exact Dr|]. split; [exact Ol|].
  split; [unfold node_pairs; rewrite carried_len; exact Np|]. eapply rim_carried; eauto.
Qed.
