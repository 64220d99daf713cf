(** The functions of the library on binary64 numbers. *)
From Coq Require Import List Arith ZArith NArith Bool Lia Permutation.
From Coq Require Import Floats.SpecFloat.
From Verif Require Import Base AlgebraModel GeometryModel SegmentModel DrawingModel MeshModel LayersModel FloatSpec Float_proofs FloatBound_proofs.
Import ListNotations.

Local Notation fsub := (SFsub f64_prec f64_emax).
Local Notation fadd := (SFadd f64_prec f64_emax).
Local Notation fmul := (SFmul f64_prec f64_emax).
Local Notation fvec := (vec FOps).

(** ** points *)
Lemma square_anti : forall x y, fmul (fsub x y) (fsub x y) = fmul (fsub y x) (fsub y x).
Proof.
  intros x y. destruct (sub_anti f64_prec f64_emax x y) as [E | [s [t [E F]]]].
  - rewrite E, mul_opp_l, mul_opp_r, opp_opp. reflexivity.
  - rewrite E. rewrite <- (opp_opp (fsub y x)), F. cbn [SFopp SFmul]. rewrite !xorb_nilpotent. reflexivity.
Qed.
Lemma dist2_sym : forall p q : fvec, distanceSquared FOps p q = distanceSquared FOps q p.
Proof. intros p q. unfold distanceSquared. cbn. rewrite (square_anti (vx p)), (square_anti (vy p)). reflexivity. Qed.
Lemma dist_sym : forall p q : fvec, distance FOps p q = distance FOps q p.
Proof. intros. unfold distance. rewrite dist2_sym. reflexivity. Qed.
Lemma eq_sym : forall p q : fvec, vec_eqb FOps p q = vec_eqb FOps q p.
Proof. intros. unfold vec_eqb. rewrite dist_sym. reflexivity. Qed.

(** the comparison without the outcome *)
Definition feq (p q : fvec) : bool := SFltb (SFsqrt f64_prec f64_emax (distanceSquared FOps p q)) (eps9 FOps).
Lemma eq_run : forall p q : fvec, vec_eqb FOps p q = Ok (feq p q).
Proof. reflexivity. Qed.
Lemma feq_sym : forall p q, feq p q = feq q p.
Proof. intros. unfold feq. rewrite dist2_sym. reflexivity. Qed.
Lemma feq_refl : forall p, feq p p = true <-> finite (vx p) /\ finite (vy p).
Proof.
  intros [x y]. unfold feq, distanceSquared. cbn [vx vy mul sub add FOps]. rewrite !sub_diag.
  destruct x, y; cbn [finite SFmul SFadd xorb Bool.eqb SFsqrt]; split; try tauto; try discriminate; auto.
Qed.
Lemma seg_run : forall s t : segment FOps, seg_eqb FOps s t =
  Ok ((feq (s_p1 s) (s_p1 t) && feq (s_p2 s) (s_p2 t)) || (feq (s_p1 s) (s_p2 t) && feq (s_p2 s) (s_p1 t))).
Proof.
  intros s t. unfold seg_eqb. rewrite !eq_run. cbn [bind].
  destruct (feq (s_p1 s) (s_p1 t)), (feq (s_p2 s) (s_p2 t)), (feq (s_p1 s) (s_p2 t)), (feq (s_p2 s) (s_p1 t)); reflexivity.
Qed.

(** ** inner products *)
Lemma inner_comm : forall (a b : list f64) acc, length a = length b -> inner_product FOps a b acc = inner_product FOps b a acc.
Proof.
  induction a as [|x a IH]; intros [|y b] acc H; cbn in H; try discriminate; auto.
  cbn [inner_product]. cbn [add mul FOps]. rewrite (mul_comm _ _ x y). apply IH. lia.
Qed.
Lemma inner_sign : forall (a : list f64) acc, not_below_zero acc -> exists s, inner_product FOps a a acc = Ok s /\ not_below_zero s.
Proof.
  induction a as [|x a IH]; intros acc H; cbn [inner_product]; [eauto|].
  apply IH. cbn [add mul FOps]. apply add_sign; auto. apply square_sign.
Qed.

(** ** orientation *)
Definition val3 (p1 p2 p3 : fvec) : f64 :=
  fsub (fmul (fsub (vy p2) (vy p1)) (fsub (vx p3) (vx p2))) (fmul (fsub (vx p2) (vx p1)) (fsub (vy p3) (vy p2))).
Lemma val3_rev : forall p1 p2 p3, same (val3 p3 p2 p1) (SFopp (val3 p1 p2 p3)).
Proof.
  intros p1 p2 p3. unfold val3. eapply same_trans; [| apply sub_anti]. apply sub_same.
  - rewrite (mul_comm _ _ (fsub (vx p2) (vx p1))).
    eapply same_trans. apply mul_same; apply sub_anti. rewrite mul_opp_l, mul_opp_r, opp_opp. apply same_refl.
  - rewrite (mul_comm _ _ (fsub (vy p2) (vy p1))).
    eapply same_trans. apply mul_same; apply sub_anti. rewrite mul_opp_l, mul_opp_r, opp_opp. apply same_refl.
Qed.
Lemma orient_run : forall p1 p2 p3 : fvec, geomOrientation FOps p1 p2 p3 =
  if SFltb (SFabs (val3 p1 p2 p3)) (dbl_eps FOps) then COLLINEAR
  else if SFltb (S754_zero false) (val3 p1 p2 p3) then CLOCKWISE else COUNTERCLOCKWISE.
Proof. reflexivity. Qed.
Lemma orient_abs : forall p1 p2 p3, SFabs (val3 p3 p2 p1) = SFabs (val3 p1 p2 p3).
Proof. intros. rewrite (abs_same _ _ (val3_rev p1 p2 p3)). apply abs_opp. Qed.
Lemma orient_col : forall p1 p2 p3 : fvec, geomOrientation FOps p1 p2 p3 = COLLINEAR <-> geomOrientation FOps p3 p2 p1 = COLLINEAR.
Proof.
  intros. rewrite !orient_run, (orient_abs p1 p2 p3). destruct (SFltb (SFabs _) _); [tauto|].
  destruct (SFltb _ (val3 p1 p2 p3)), (SFltb _ (val3 p3 p2 p1)); split; discriminate.
Qed.
Lemma pos_rev : forall p1 p2 p3, SFltb (S754_zero false) (val3 p3 p2 p1) = SFltb (val3 p1 p2 p3) (S754_zero false).
Proof. intros. rewrite (ltb_same _ _ _ _ (same_refl _) (val3_rev p1 p2 p3)). apply ltb_opp0. Qed.
Lemma both_no : forall x, SFltb x (S754_zero false) = true -> SFltb (S754_zero false) x = true -> False.
Proof. intros [s|s| |s m e]; cbn; try discriminate; destruct s; discriminate. Qed.
Lemma orient_cw : forall p1 p2 p3 : fvec, geomOrientation FOps p1 p2 p3 = CLOCKWISE -> geomOrientation FOps p3 p2 p1 = COUNTERCLOCKWISE.
Proof.
  intros p1 p2 p3. rewrite !orient_run, (orient_abs p1 p2 p3). destruct (SFltb (SFabs _) _); [discriminate|].
  rewrite (pos_rev p1 p2 p3). destruct (SFltb (S754_zero false) (val3 p1 p2 p3)) eqn:E; [intros _ | discriminate].
  destruct (SFltb (val3 p1 p2 p3) _) eqn:F; auto. exfalso. eapply both_no; eauto.
Qed.
Lemma orient_rev : forall p1 p2 p3 : fvec, f64_is_nan (val3 p1 p2 p3) = false ->
  geomOrientation FOps p3 p2 p1 = other_way (geomOrientation FOps p1 p2 p3).
Proof.
  intros p1 p2 p3 N. destruct (geomOrientation FOps p1 p2 p3) eqn:E; cbn [other_way].
  - apply orient_col. auto.
  - apply orient_cw. auto.
  - rewrite !orient_run in *. rewrite (orient_abs p1 p2 p3), (pos_rev p1 p2 p3).
    destruct (SFltb (SFabs (val3 p1 p2 p3)) _) eqn:A; [discriminate|].
    destruct (SFltb _ (val3 p1 p2 p3)) eqn:B; [discriminate|].
    clear E. revert A B N. generalize (val3 p1 p2 p3). intros [s|s| |s m e] A B N; try (exfalso; discriminate A); try (exfalso; discriminate N);
      destruct s; try (exfalso; discriminate B); reflexivity.
Qed.
Lemma val3_below : forall p1 p2 p3, point_below 400 p1 -> point_below 400 p2 -> point_below 400 p3 -> below 900 (val3 p1 p2 p3).
Proof.
  intros p1 p2 p3 [A1 B1] [A2 B2] [A3 B3]. unfold val3.
  assert (S : forall x y, below 400 x -> below 400 y -> below 402 (fsub x y)) by (intros; apply (sub_below 400); auto; lia).
  eapply below_mono. apply (sub_below 805); try lia; apply (mul_below 402 402); auto; lia. lia.
Qed.

(** ** polygons: the edges in any order, for every kind of numbers *)
Section Poly.
Variable o : Ops.
Notation ovec := (vec o).
Definition ohit (p : ovec) (e : ovec * ovec) : bool := match edge_step o p (fst e) (snd e) with None => true | Some _ => false end.
Definition otog (p : ovec) (e : ovec * ovec) : bool := match edge_step o p (fst e) (snd e) with Some t => t | None => false end.
Fixpoint opar (p : ovec) (l : list (ovec * ovec)) : bool := match l with [] => false | e :: l' => xorb (otog p e) (opar p l') end.
Fixpoint opairs (A : ovec) (l : list ovec) : list (ovec * ovec) := match l with [] => [] | B :: l' => (A, B) :: opairs B l' end.
Definition walk (l : list ovec) : list (ovec * ovec) := match l with [] => [] | a :: t => opairs a (t ++ [a]) end.
Lemma oloop : forall p l A ins, contains_loop o p A l ins = existsb (ohit p) (opairs A l) || xorb ins (opar p (opairs A l)).
Proof.
  intros p; induction l as [|B l IH]; intros A ins; simpl; [destruct ins; auto|].
  unfold ohit at 1, otog at 1; simpl. destruct (edge_step o p A B) as [t|]; simpl; auto.
  rewrite IH. destruct t, ins, (opar p (opairs B l)), (existsb (ohit p) (opairs B l)); auto.
Qed.
Lemma opairs_app : forall l1 A B l2, opairs A (l1 ++ B :: l2) = opairs A (l1 ++ [B]) ++ opairs B l2.
Proof. induction l1 as [|C l1 IH]; intros; simpl; auto. rewrite IH. auto. Qed.
Lemma walk_perm : forall A0 l, Permutation (opairs (last (A0 :: l) A0) (A0 :: l)) (walk (A0 :: l)).
Proof.
  intros A0 l. unfold walk. destruct l as [|x l0] using rev_ind; [simpl; apply Permutation_refl|].
  clear IHl0. change (A0 :: l0 ++ [x]) with ((A0 :: l0) ++ [x]). rewrite last_last. simpl.
  rewrite <- app_assoc. simpl. rewrite (opairs_app l0 A0 x [A0]). simpl. apply Permutation_cons_append.
Qed.
Lemma opar_perm : forall p l1 l2, Permutation l1 l2 -> opar p l1 = opar p l2.
Proof. induction 1; simpl; auto; try congruence. rewrite <- !xorb_assoc, (xorb_comm (otog p y)). auto. Qed.
Lemma oex_perm : forall (f : ovec * ovec -> bool) l1 l2, Permutation l1 l2 -> existsb f l1 = existsb f l2.
Proof.
  induction 1; simpl; auto; try congruence. destruct (f x), (f y); auto.
Qed.
Lemma contains_walk : forall l p, poly_contains o l p = existsb (ohit p) (walk l) || opar p (walk l).
Proof.
  intros [|a l] p; auto. unfold poly_contains. rewrite oloop. pose proof (walk_perm a l) as W.
  rewrite (oex_perm _ _ _ W), (opar_perm _ _ _ W). rewrite xorb_false_l. reflexivity.
Qed.
Lemma walk_rotate : forall a l, Permutation (walk (l ++ [a])) (walk (a :: l)).
Proof.
  intros a [|b l]; [apply Permutation_refl|]. cbn [walk app]. rewrite <- app_assoc. cbn [app].
  rewrite (opairs_app l b a [b]). cbn [opairs app]. apply Permutation_sym. apply Permutation_cons_append.
Qed.
Lemma owalk : forall l1 l2 p, Permutation (walk l1) (walk l2) -> poly_contains o l1 p = poly_contains o l2 p.
Proof. intros. rewrite !contains_walk. rewrite (oex_perm _ _ _ H), (opar_perm _ _ _ H). auto. Qed.
Lemma ostart : forall l1 l2 p, poly_contains o (l2 ++ l1) p = poly_contains o (l1 ++ l2) p.
Proof.
  induction l1 as [|a l1 IH]; intros l2 p; [rewrite app_nil_r; auto|].
  cbn [app]. rewrite <- (owalk _ _ p (walk_rotate a (l1 ++ l2))). rewrite <- app_assoc. rewrite <- (IH (l2 ++ [a]) p). rewrite <- app_assoc. auto.
Qed.
Definition oswp (e : ovec * ovec) : ovec * ovec := (snd e, fst e).
Lemma opairs_rev : forall l A B, rev (map oswp (opairs A (l ++ [B]))) = opairs B (rev l ++ [A]).
Proof.
  induction l as [|C l IH]; intros A B; simpl; auto.
  rewrite IH. unfold oswp; simpl. rewrite <- app_assoc. simpl. rewrite (opairs_app (rev l) B C [A]). auto.
Qed.
Lemma walk_rev : forall l, Permutation (walk (rev l)) (map oswp (walk l)).
Proof.
  intros [|a l]; [apply Permutation_refl|]. eapply Permutation_trans; [simpl; apply walk_rotate|]. unfold walk.
  rewrite <- opairs_rev. apply Permutation_sym, Permutation_rev.
Qed.
Lemma walk_in : forall l a b, In (a, b) (walk l) -> In a l /\ In b l.
Proof.
  assert (G : forall l A a b, In (a, b) (opairs A l) -> (a = A \/ In a l) /\ In b l).
  { induction l as [|B l IH]; intros A a b H; cbn in H; [tauto|].
    destruct H as [H|H]; [injection H as <- <-; cbn; auto|]. apply IH in H. cbn. intuition congruence. }
  intros [|c l] a b H; [destruct H|]. apply G in H. rewrite !in_app_iff in H. cbn in *. intuition congruence.
Qed.
Lemma orev : forall l p, (forall a b, In (a, b) (walk l) -> edge_step o p b a = edge_step o p a b) -> poly_contains o (rev l) p = poly_contains o l p.
Proof.
  intros l p H. rewrite !contains_walk. rewrite (oex_perm _ _ _ (walk_rev l)), (opar_perm _ _ _ (walk_rev l)).
  assert (G : forall w, incl w (walk l) -> existsb (ohit p) (map oswp w) = existsb (ohit p) w /\ opar p (map oswp w) = opar p w).
  { induction w as [|[a b] w IH]; intros I; cbn [map existsb opar]; auto.
    destruct IH as [-> ->]. { intros x Hx. apply I. right; auto. }
    assert (E : edge_step o p b a = edge_step o p a b) by (apply H, I; left; auto).
    unfold ohit, otog, oswp; cbn [fst snd]. rewrite E. auto. }
  destruct (G (walk l)) as [-> ->]; auto. intros x; auto.
Qed.
End Poly.

(** ** one edge, walked both ways *)
Definition cross3 (p A B : fvec) : f64 :=
  fsub (fmul (fsub (vx A) (vx p)) (fsub (vy B) (vy p))) (fmul (fsub (vx B) (vx p)) (fsub (vy A) (vy p))).
Lemma cross3_below : forall p A B, point_below 400 p -> point_below 400 A -> point_below 400 B -> below 900 (cross3 p A B).
Proof.
  intros p1 p2 p3 [A1 B1] [A2 B2] [A3 B3]. unfold cross3.
  assert (S : forall x y, below 400 x -> below 400 y -> below 402 (fsub x y)) by (intros; apply (sub_below 400); auto; lia).
  eapply below_mono. apply (sub_below 805); try lia; apply (mul_below 402 402); auto; lia. lia.
Qed.
Definition fle (x y : f64) : bool := SFltb x y || SFeqb x y.
Definition fge (x y : f64) : bool := SFltb y x || SFeqb x y.
Lemma edge_run : forall p A B : fvec, edge_step FOps p A B =
  if (SFeqb (vx p) (vx A) && SFeqb (vy p) (vy A)) || (SFeqb (vx p) (vx B) && SFeqb (vy p) (vy B)) then None
  else if SFeqb (vy A) (vy B) && SFeqb (vy p) (vy A) && ((fge (vx p) (vx A) && fle (vx p) (vx B)) || (fle (vx p) (vx A) && fge (vx p) (vx B))) then None
  else if (fge (vy p) (vy A) && fle (vy p) (vy B)) || (fle (vy p) (vy A) && fge (vy p) (vy B)) then
    if (SFeqb (vy p) (vy A) && fge (vy B) (vy A)) || (SFeqb (vy p) (vy B) && fge (vy A) (vy B)) then Some false
    else if SFeqb (cross3 p A B) (S754_zero false) then None
         else Some (Bool.eqb (SFltb (vy A) (vy B)) (SFltb (S754_zero false) (cross3 p A B)))
  else Some false.
Proof. reflexivity. Qed.
Lemma trichotomy : forall x y, f64_is_nan x = false -> f64_is_nan y = false ->
  (SFltb x y = true /\ SFeqb x y = false /\ SFltb y x = false) \/ (SFltb x y = false /\ SFeqb x y = true /\ SFltb y x = false) \/
  (SFltb x y = false /\ SFeqb x y = false /\ SFltb y x = true).
Proof.
  intros x y X Y. unfold SFltb, SFeqb. rewrite (compare_swap x y).
  destruct (SFcompare x y) as [[]|] eqn:E; cbn; auto.
  destruct x, y; cbn in E; try discriminate.
Qed.
Lemma eqb_cong_l : forall x y z, SFeqb x y = true -> SFeqb z x = SFeqb z y.
Proof. intros x y z H. apply eqb_true in H. apply eqb_same; auto. apply same_refl. Qed.
Lemma ltb_cong_r : forall x y z, SFeqb x y = true -> SFltb z x = SFltb z y.
Proof. intros x y z H. apply eqb_true in H. apply ltb_same; auto. apply same_refl. Qed.
Lemma ltb_cong_l : forall x y z, SFeqb x y = true -> SFltb x z = SFltb y z.
Proof. intros x y z H. apply eqb_true in H. apply ltb_same; auto. apply same_refl. Qed.
Lemma cross3_swap : forall p A B, same (cross3 p B A) (SFopp (cross3 p A B)).
Proof. intros. unfold cross3. apply sub_anti. Qed.
Lemma eqb0_opp : forall x, SFeqb (SFopp x) (S754_zero false) = SFeqb x (S754_zero false).
Proof. intros [s|s| |s m e]; cbn; auto; destruct s; auto. Qed.
Lemma edge_swap : forall p A B : fvec, point_below 400 p -> point_below 400 A -> point_below 400 B ->
  edge_step FOps p B A = edge_step FOps p A B.
Proof.
  intros p A B HP HA HB. rewrite !edge_run.
  assert (CN : f64_is_nan (cross3 p A B) = false) by (eapply below_not_nan, cross3_below; eauto).
  destruct HP as [PX PY], HA as [AX AY], HB as [BX BY]. apply below_not_nan in PX, PY, AX, AY, BX, BY.
  rewrite (orb_comm (SFeqb (vx p) (vx B) && _)).
  destruct (_ && _ || _ && _); auto.
  rewrite (eqb_sym (vy B) (vy A)).
  replace (SFeqb (vy A) (vy B) && SFeqb (vy p) (vy B)) with (SFeqb (vy A) (vy B) && SFeqb (vy p) (vy A)).
  2: { destruct (SFeqb (vy A) (vy B)) eqn:E; auto. cbn. apply eqb_cong_l; auto. }
  rewrite (orb_comm (fge (vx p) (vx B) && _)), (andb_comm (fle (vx p) (vx B))), (andb_comm (fge (vx p) (vx B))).
  destruct (_ && (_ || _)); auto.
  rewrite (orb_comm (fge (vy p) (vy B) && _)), (andb_comm (fle (vy p) (vy B))), (andb_comm (fge (vy p) (vy B))).
  destruct (fge (vy p) (vy A) && fle (vy p) (vy B) || fle (vy p) (vy A) && fge (vy p) (vy B)) eqn:RG; auto.
  rewrite (orb_comm (SFeqb (vy p) (vy B) && _)).
  destruct (SFeqb (vy p) (vy A) && fge (vy B) (vy A) || SFeqb (vy p) (vy B) && fge (vy A) (vy B)) eqn:FL; auto.
  rewrite (eqb_same _ _ _ _ (cross3_swap p A B) (same_refl _)), eqb0_opp.
  destruct (SFeqb (cross3 p A B) _) eqn:C0; auto. f_equal.
  rewrite (ltb_same _ _ _ _ (same_refl _) (cross3_swap p A B)), (ltb_opp0 _ false false).
  destruct (trichotomy (vy A) (vy B) AY BY) as [[L1 [L2 L3]]|[[L1 [L2 L3]]|[L1 [L2 L3]]]].
  - rewrite L1, L3. destruct (trichotomy (cross3 p A B) (S754_zero false) CN eq_refl) as [[M1 [M2 M3]]|[[M1 [M2 M3]]|[M1 [M2 M3]]]];
      try congruence; rewrite M1, M3; reflexivity.
  - exfalso. unfold fge, fle in *. rewrite (eqb_sym (vy B) (vy A)), L1, L2, L3 in FL. cbn in FL.
    rewrite !andb_true_r in FL. apply orb_false_iff in FL. destruct FL as [F1 F2]. rewrite F1, F2 in RG. rewrite !orb_false_r in RG.
    rewrite (ltb_cong_l _ _ _ L2), (ltb_cong_r _ _ _ L2) in RG.
    destruct (trichotomy (vy p) (vy B) PY BY) as [[K1 [K2 K3]]|[[K1 [K2 K3]]|[K1 [K2 K3]]]]; rewrite K1, K3 in RG; discriminate.
  - rewrite L1, L3. destruct (trichotomy (cross3 p A B) (S754_zero false) CN eq_refl) as [[M1 [M2 M3]]|[[M1 [M2 M3]]|[M1 [M2 M3]]]];
      try congruence; rewrite M1, M3; reflexivity.
Qed.
Lemma poly_rev : forall (l : list fvec) p, Forall (point_below 400) l -> point_below 400 p -> poly_contains FOps (rev l) p = poly_contains FOps l p.
Proof.
  intros l p L HP. apply orev. intros a b H. apply walk_in in H. destruct H. rewrite Forall_forall in L. apply edge_swap; auto.
Qed.

(** ** signs *)
Lemma norm_sign : forall v : fvec, exists x, GeometryModel.norm FOps v = Ok x /\ not_below_zero x.
Proof.
  intros v. eexists; split; [reflexivity|]. apply sqrt_sign. cbn [normSquared add mul FOps]. apply add_sign; apply square_sign.
Qed.
Lemma dist_sign : forall p q : fvec, exists x, distance FOps p q = Ok x /\ not_below_zero x.
Proof. intros. eexists; split; [reflexivity|]. apply sqrt_sign. unfold distanceSquared. cbn [add mul FOps]. apply add_sign; apply square_sign. Qed.
Lemma segdist_sign : forall p a b : fvec, exists x, pointSegmentDistance FOps p a b = Ok x /\ not_below_zero x.
Proof.
  intros. unfold pointSegmentDistance. cbn [div FOps bind]. destruct (ltb FOps _ _); [apply dist_sign|]. destruct (gtb FOps _ _); apply dist_sign.
Qed.
Lemma eps_inner_sign : forall pts i (p : fvec) segs m m', not_below_zero m -> eps_inner FOps pts i p segs m = Ok m' -> not_below_zero m'.
Proof.
  intros pts i p. induction segs as [|s segs IH]; intros m m' M H; cbn [eps_inner] in H; [injection H as <-; auto|].
  destruct (_ || _); [eapply IH; try apply H; auto|].
  apply bind_ok in H. destruct H as [a [_ H]]. apply bind_ok in H. destruct H as [b [_ H]]. apply bind_ok in H. destruct H as [d [D H]].
  destruct (segdist_sign p a b) as [x [X XS]]. rewrite X in D. injection D as <-.
  destruct (ltb FOps x m); eapply IH; try apply H; auto.
Qed.
Lemma eps_outer_sign : forall pts segs l i m m', not_below_zero m -> eps_outer FOps pts segs l i m = Ok m' -> not_below_zero m'.
Proof.
  intros pts segs. induction l as [|p l IH]; intros i m m' M H; cbn [eps_outer] in H; [injection H as <-; auto|].
  apply bind_ok in H. destruct H as [x [X H]]. apply eps_inner_sign in X; auto. eapply IH; try apply H; auto.
Qed.
Lemma from_inv : forall X (P : X -> Prop) (f : nat -> X -> res X) n a s s', (forall i x y, P x -> f i x = Ok y -> P y) ->
  P s -> forM_from n a f s = Ok s' -> P s'.
Proof.
  intros X P f n a s s' I. revert a s. induction n as [|n IH]; intros a s S H; cbn [forM_from] in H; [injection H as <-; auto|].
  apply bind_ok in H. destruct H as [x [E H]]. eapply IH; [|apply H]. eapply I; eauto.
Qed.
Lemma upd_forall : forall X (P : X -> Prop) l i x, Forall P l -> P x -> Forall P (upd l i x).
Proof. induction l as [|y l IH]; intros [|i] x F H; cbn; auto; inversion F; subst; constructor; auto. Qed.
Lemma set_forall : forall X (P : X -> Prop) l i x l', Forall P l -> P x -> set l i x = Ok l' -> Forall P l'.
Proof. intros X P l i x l' F H E. unfold set in E. destruct (Nat.ltb i (length l)); [injection E as <-; apply upd_forall; auto | discriminate]. Qed.
Lemma power_sign : forall (A : Type) (sigma : A -> f64) (ms : list (mesh FOps A)) V P, (forall p, not_below_zero (sigma p)) ->
  computePowerDensity FOps A sigma ms V = Ok P -> Forall not_below_zero P.
Proof.
  intros A sigma ms V P SG. unfold computePowerDensity. generalize 0 at 1. generalize 0.
  assert (F0 : forall n, Forall not_below_zero (repeat (zero FOps) n)) by (induction n; cbn; constructor; auto; reflexivity).
  specialize (F0 (total (map (fun m => length (m_tris m)) ms))). revert F0.
  generalize (repeat (zero FOps) (total (map (fun m => length (m_tris m)) ms))). revert P.
  induction ms as [|m ms IH]; intros P P0 F0 eoff noff H; cbn [layer_powers] in H; [injection H as <-; auto|].
  apply bind_ok in H. destruct H as [Vs [_ H]]. apply bind_ok in H. destruct H as [E [_ H]]. apply bind_ok in H. destruct H as [P1 [H1 H]].
  eapply IH; [|apply H]. eapply (from_inv _ (Forall not_below_zero)); [|apply F0|apply H1].
  intros j Q Q' FQ HQ. cbn beta in HQ. apply bind_ok in HQ. destruct HQ as [x [X HQ]].
  eapply set_forall; [apply FQ | | apply HQ].
  unfold element_power in X. apply bind_ok in X. destruct X as [a [_ X]]. apply bind_ok in X. destruct X as [p [_ X]].
  apply bind_ok in X. destruct X as [e [_ X]]. apply bind_ok in X. destruct X as [n [N X]]. injection X as <-.
  destruct (norm_sign e) as [n' [N' NS]]. rewrite N in N'. injection N' as <-.
  cbn [mul FOps]. apply mul_sign; auto. apply mul_sign; auto.
Qed.
Lemma dist_below : forall p q : fvec, point_below 400 p -> point_below 400 q -> exists x, distance FOps p q = Ok x /\ finite x.
Proof.
  intros p q [PX PY] [QX QY]. eexists; split; [reflexivity|]. apply (below_finite 450).
  assert (S : forall x y, below 400 x -> below 400 y -> below 805 (fmul (fsub x y) (fsub x y))).
  { intros x y X Y. pose proof (sub_below 400 x y X Y) as D. apply (mul_below 402 402); try lia; apply D; lia. }
  apply (below_mono 405). 2: lia.
  apply (sqrt_below 404); try lia.
  - eapply below_mono. unfold distanceSquared; cbn [add mul sub FOps]. apply (add_below 805); auto. lia. lia.
  - unfold distanceSquared; cbn [add mul sub FOps]. apply add_sign; apply square_sign.
Qed.
