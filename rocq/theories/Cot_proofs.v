(** What the assembly with cotangent weights puts into the matrix. *)
From Coq Require Import String.
From Coq Require Import List Arith ZArith NArith Bool Lia Reals Lra.
From Verif Require Import Base SumR AlgebraModel AlgebraSpec Coo_proofs Algebra_bridge GeometryModel GeometrySpec Geometry_proofs DrawingModel DrawingSpec
  MeshModel MeshSpec Adjacency_proofs Fem_proofs Energy_proofs Layers_proofs RefineSpec CotSpec.
Import ListNotations.
Local Open Scope R_scope.

Definition distinct3 (t : tri) : Prop := t0 t <> t1 t /\ t1 t <> t2 t /\ t2 t <> t0 t.
Definition both (u v : nat) (t : tri) : bool := corner_of u t && corner_of v t.

(** ** the neighbour lists *)
Lemma pushes_rows : forall l tb, Forall (fun p => (fst p < length tb)%nat) l -> (forall v, (length (trow tb v) + count v (map fst l) <= 18)%nat) ->
  exists tb', pushes tb l = Ok tb' /\ length tb' = length tb /\ forall v, trow tb' v = trow tb v ++ map snd (filter (fun p => Nat.eqb (fst p) v) l).
Proof.
  induction l as [|[v x] l IH]; intros tb Hl Hc; cbn [pushes].
  - exists tb. repeat split. intros v. cbn. rewrite app_nil_r. reflexivity.
  - inversion Hl as [|? ? H1 H2]; subst. cbn [fst snd] in *. rewrite push_spec by auto.
    assert (L : (length (trow tb v) < 18)%nat). { specialize (Hc v). cbn [map fst] in Hc. rewrite count_cons, Nat.eqb_refl in Hc. lia. }
    destruct (Nat.leb_spec 18 (length (trow tb v))); [lia|]. cbn [bind]. set (tb1 := upd tb v (trow tb v ++ [x])).
    assert (L1 : length tb1 = length tb) by apply upd_length.
    assert (R1 : forall u, trow tb1 u = trow tb u ++ (if Nat.eqb v u then [x] else [])).
    { intros u. unfold tb1. rewrite trow_upd by auto. destruct (Nat.eqb_spec v u); [subst; auto|rewrite app_nil_r; auto]. }
    destruct (IH tb1) as [tb' [E [L2 R2]]].
    + rewrite L1. auto.
    + intros u. specialize (Hc u). rewrite R1, app_length. cbn [map fst] in Hc. rewrite count_cons in Hc. destruct (Nat.eqb v u); cbn in *; lia.
    + exists tb'. split; auto. split; [lia|]. intros u. rewrite R2, R1, <- app_assoc. f_equal. cbn [filter fst]. destruct (Nat.eqb v u); reflexivity.
Qed.
Definition around (ts : list tri) (v : nat) : list nat := map snd (filter (fun p => Nat.eqb (fst p) v) (concat (map pairs_of ts))).
Lemma neighbours_rows : forall A (m : mesh ROps A), well_shaped m -> (forall v, (degree (m_tris m) v <= 9)%nat) ->
  exists nb, neighbours ROps A m = Ok nb /\ length nb = length (m_points m) /\ forall v, trow nb v = around (m_tris m) v.
Proof.
  intros A m [W1 _] Hd. rewrite neighbours_pushes.
  destruct (pushes_rows (concat (map pairs_of (m_tris m))) (repeat [] (length (m_points m)))) as [nb [E [L H]]].
  - rewrite repeat_length. induction W1 as [|t l [X [Y Z]] Hs IH]; cbn [map concat]; auto. apply Forall_app. split; auto. unfold pairs_of. repeat (apply Forall_cons; [cbn; auto|]). apply Forall_nil.
    apply IH. intros v. specialize (Hd v). rewrite degree_cons in Hd. lia.
  - intros v. rewrite trow_empty, pairs_degree. specialize (Hd v). cbn. lia.
  - exists nb. rewrite repeat_length in L. split; auto. split; auto. intros v. rewrite H, trow_empty. reflexivity.
Qed.
Lemma around_count : forall ts a b, Forall distinct3 ts -> count b (around ts a) = if Nat.eqb a b then O else length (filter (both a b) ts).
Proof.
  intros ts a b H. unfold around. induction H as [|t l [N1 [N2 N3]] _ IH]; cbn [map concat filter].
  - destruct (Nat.eqb a b); reflexivity.
  - rewrite filter_app, map_app. unfold count in *. rewrite filter_app, app_length, IH. clear IH.
    unfold pairs_of, both, corner_of, corners. cbn [filter fst snd existsb].
    destruct (Nat.eqb_spec (t0 t) a), (Nat.eqb_spec (t1 t) a), (Nat.eqb_spec (t2 t) a); try congruence;
    destruct (Nat.eqb_spec a (t0 t)), (Nat.eqb_spec a (t1 t)), (Nat.eqb_spec a (t2 t)); try congruence; cbn [map filter length snd orb andb];
    destruct (Nat.eqb_spec b (t0 t)), (Nat.eqb_spec b (t1 t)), (Nat.eqb_spec b (t2 t)); try congruence; cbn [map filter length snd orb andb];
    destruct (Nat.eqb_spec a b); try congruence; reflexivity.
Qed.
Lemma around_in : forall n ts a c, Forall (tri_in n) ts -> In c (around ts a) -> (c < n)%nat.
Proof.
  intros n ts a c H. unfold around. intros K. apply in_map_iff in K. destruct K as [[x y] [<- K]]. apply filter_In in K. destruct K as [K _]. cbn [snd].
  induction H as [|t l [X [Y Z]] _ IH]; cbn [map concat] in K; [contradiction|]. apply in_app_or in K. destruct K as [K|K]; auto.
  unfold pairs_of in K. cbn in K. repeat (destruct K as [K|K]; [inversion K; subst; auto|]). contradiction.
Qed.
Lemma pick_sum : forall l b (g : nat -> R), suml l (fun c => if Nat.eqb c b then g c else 0) = INR (count b l) * g b.
Proof.
  induction l as [|c l IH]; intros b g; [cbn; ring|]. rewrite suml_cons, IH, count_cons, plus_INR.
  destruct (Nat.eqb_spec c b) as [->|]; cbn [INR]; ring.
Qed.
Lemma sum_by_value : forall n l (g : nat -> R), (forall c, In c l -> (c < n)%nat) -> suml l g = sumn n (fun b => INR (count b l) * g b).
Proof.
  intros n l g H. rewrite (sumn_ext n _ (fun b => suml l (fun c => if Nat.eqb c b then g c else 0))) by (intros; symmetry; apply pick_sum).
  rewrite <- suml_sumn. apply suml_ext. intros c Hc. rewrite (sumn_ext n _ (fun b => if Nat.eqb b c then g c else 0)) by (intros; rewrite Nat.eqb_sym; reflexivity).
  symmetry. apply (sumn_delta n c (fun _ => g c)). auto.
Qed.

(** ** the two triangles and their third corners *)
Lemma has_both : forall u v t, has_corner u t && has_corner v t = both u v t.
Proof.
  intros u v t. unfold has_corner, both, corner_of, corners. cbn [existsb]. rewrite !orb_false_r, !orb_assoc.
  rewrite (Nat.eqb_sym u (t0 t)), (Nat.eqb_sym u (t1 t)), (Nat.eqb_sym u (t2 t)), (Nat.eqb_sym v (t0 t)), (Nat.eqb_sym v (t1 t)), (Nat.eqb_sym v (t2 t)). reflexivity.
Qed.
Lemma count_distinct : forall t v, distinct3 t -> count v (corners t) = if corner_of v t then 1%nat else O.
Proof.
  intros t v [N1 [N2 N3]]. unfold corner_of, corners. rewrite !count_cons. cbn [count filter length existsb].
  rewrite (Nat.eqb_sym v (t0 t)), (Nat.eqb_sym v (t1 t)), (Nat.eqb_sym v (t2 t)).
  destruct (Nat.eqb_spec (t0 t) v), (Nat.eqb_spec (t1 t) v), (Nat.eqb_spec (t2 t) v); subst; try congruence; reflexivity.
Qed.
Lemma common_found : forall A (m : mesh ROps A) u v l (ps : list A) pre, m_tris m = pre ++ l -> length ps = length l -> Forall distinct3 l ->
  common_tris ROps A m u v (incid u (combine l ps) (length pre)) = Ok (filter (both u v) l).
Proof.
  intros A m u v l. induction l as [|t l IH]; intros ps pre E HL HD; [reflexivity|]. destruct ps as [|p ps]; [discriminate HL|].
  inversion HD as [|? ? H1 H2]; subst. cbn [combine incid]. rewrite count_distinct by auto.
  assert (K : common_tris ROps A m u v (incid u (combine l ps) (S (length pre))) = Ok (filter (both u v) l)).
  { replace (S (length pre)) with (length (pre ++ [t])) by (rewrite app_length; cbn; lia). apply IH; auto. rewrite <- app_assoc. exact E. }
  cbn [filter]. unfold both at 1. destruct (corner_of u t) eqn:C; cbn [repeat app andb].
  - cbn [common_tris]. unfold get. rewrite E, nth_error_app2, Nat.sub_diag by lia. cbn [nth_error bind]. rewrite K. cbn [bind].
    rewrite has_both. unfold both at 1. rewrite C. cbn [andb]. reflexivity.
  - exact K.
Qed.
Lemma third_apex : forall u v t, distinct3 t -> u <> v -> both u v t = true -> third_corner u v t = Ok (apex u v t).
Proof.
  intros u v t [N1 [N2 N3]] Nuv B. unfold both, corner_of, corners in B. cbn [existsb] in B. unfold third_corner, apex, corners. cbn [filter].
  rewrite !(Nat.eqb_sym u), !(Nat.eqb_sym v) in B.
  destruct (Nat.eqb_spec (t0 t) u), (Nat.eqb_spec (t1 t) u), (Nat.eqb_spec (t2 t) u); try congruence; cbn [orb andb negb] in *; try discriminate B;
  destruct (Nat.eqb_spec (t0 t) v), (Nat.eqb_spec (t1 t) v), (Nat.eqb_spec (t2 t) v); try congruence; cbn [orb andb negb] in *; try discriminate B; reflexivity.
Qed.
Lemma apex_corner : forall u v t, distinct3 t -> u <> v -> both u v t = true ->
  is_corner (apex u v t) t /\ is_corner u t /\ is_corner v t /\ apex u v t <> u /\ apex u v t <> v.
Proof.
  intros u v t [N1 [N2 N3]] Nuv B. unfold both, corner_of, corners in B. cbn [existsb] in B. unfold is_corner, apex, corners. cbn [filter].
  rewrite !(Nat.eqb_sym u), !(Nat.eqb_sym v) in B.
  destruct (Nat.eqb_spec (t0 t) u), (Nat.eqb_spec (t1 t) u), (Nat.eqb_spec (t2 t) u); try congruence; cbn [orb andb negb] in *; try discriminate B;
  destruct (Nat.eqb_spec (t0 t) v), (Nat.eqb_spec (t1 t) v), (Nat.eqb_spec (t2 t) v); try congruence; cbn [orb andb negb] in *; try discriminate B; cbn [nth]; repeat split; auto.
Qed.
Lemma both_sym : forall u v t, both u v t = both v u t.
Proof. intros. unfold both. apply andb_comm. Qed.
Lemma apex_sym : forall u v t, apex u v t = apex v u t.
Proof. intros. unfold apex. f_equal. apply filter_ext. intros c. apply andb_comm. Qed.
Lemma sharing_sym : forall A (m : mesh ROps A) u v, sharing m u v = sharing m v u.
Proof. intros. unfold sharing. apply filter_ext. intros t. apply (both_sym u v t). Qed.
Lemma opposite_sym : forall A (m : mesh ROps A) u v t, opposite m u v t = opposite m v u t.
Proof.
  intros. unfold opposite, cotangent. rewrite (apex_sym v u). set (c := pos m (apex u v t)). set (a := pos m u). set (b := pos m v).
  replace (turn c b a) with (- turn c a b) by (unfold turn; ring). rewrite Rabs_Ropp. f_equal. ring.
Qed.
(** the triangle seen from the apex *)
Lemma apex_turn : forall A (m : mesh ROps A) u v t, distinct3 t -> u <> v -> both u v t = true ->
  Rabs (turn (pos m (apex u v t)) (pos m u) (pos m v)) = Rabs (tri_turn m t).
Proof.
  intros A m u v t [N1 [N2 N3]] Nuv B.
  assert (G : turn (pos m (apex u v t)) (pos m u) (pos m v) = tri_turn m t \/ turn (pos m (apex u v t)) (pos m u) (pos m v) = - tri_turn m t).
  { unfold both, corner_of, corners in B. cbn [existsb] in B. unfold tri_turn, apex, corners. cbn [filter]. rewrite !(Nat.eqb_sym u), !(Nat.eqb_sym v) in B.
    destruct (Nat.eqb_spec (t0 t) u), (Nat.eqb_spec (t1 t) u), (Nat.eqb_spec (t2 t) u); try congruence; cbn [orb andb negb] in *; try discriminate B;
    destruct (Nat.eqb_spec (t0 t) v), (Nat.eqb_spec (t1 t) v), (Nat.eqb_spec (t2 t) v); try congruence; cbn [orb andb negb] in *; try discriminate B; cbn [nth]; subst;
    unfold turn; first [left; ring|right; ring]. }
  destruct G as [->| ->]; [reflexivity|apply Rabs_Ropp].
Qed.

(** ** the cotangent *)
Section Cot.
Variable lm : libm ROps.
Hypothesis exact : exact_libm lm.
Hypothesis atan2_ok : exact_atan2 lm.
Lemma cot_R : forall a c b : pt, turn c a b <> 0 -> cot ROps lm (geomAngle ROps lm a c b) = Ok (cotangent a c b).
Proof.
  intros a c b Ht. unfold geomAngle, absoluteAngle. cbv zeta. destruct exact as [Hs [Hc _]].
  set (dt := (px a - px c) * (px b - px c) + (py a - py c) * (py b - py c)). set (dd := (px a - px c) * (py b - py c) - (py a - py c) * (px b - px c)).
  assert (Ed : dd = turn c a b) by (unfold dd, turn; ring).
  change (cot ROps lm (Rabs (fatan2 ROps lm dd dt)) = Ok (cotangent a c b)). unfold cot. rewrite Hs, Hc. rewrite <- Ed in Ht.
  destruct (atan2_ok dd dt (or_intror Ht)) as [B [C S0]]. change (T ROps) with R in *. set (th := fatan2 ROps lm dd dt) in *. set (r := sqrt (dt * dt + dd * dd)) in *.
  assert (Pr : 0 < r). { apply sqrt_lt_R0. assert (0 < dd * dd) by (apply Rsqr_pos_lt; auto). pose proof (Rle_0_sqr dt). unfold Rsqr in *. lra. }
  assert (Ec : cos (Rabs th) = cos th). { unfold Rabs. destruct (Rcase_abs th); auto. apply cos_neg. }
  assert (Es : sin (Rabs th) = Rabs (sin th)).
  { unfold Rabs at 1. destruct (Rcase_abs th) as [N|N].
    - rewrite sin_neg. assert (sin (- th) >= 0). { apply Rle_ge, sin_ge_0; lra. } rewrite sin_neg in H. rewrite Rabs_left1; lra.
    - assert (0 <= sin th) by (apply sin_ge_0; lra). rewrite Rabs_right; lra. }
  assert (Ns : sin th <> 0). { intros E. rewrite E in S0. lra. }
  rewrite Ec, Es, Rdiv_ok by (apply Rabs_no_R0; auto). f_equal. unfold cotangent. rewrite <- Ed. fold dt. rewrite C, S0, Rabs_mult, (Rabs_right r) by lra.
  field. split; [apply Rabs_no_R0; auto|lra].
Qed.

Context {A : Type}.
Variable m : mesh ROps A.
Variable ps : list A.
Notation n := (length (m_points m)).
Hypothesis ready : fem_ready m ps.
Hypothesis deg9 : forall v, (degree (m_tris m) v <= 9)%nat.
Lemma all_distinct : Forall distinct3 (m_tris m).
Proof. destruct ready as [_ [_ [_ Hp]]]. unfold proper in Hp. eapply Forall_impl; [|exact Hp]. intros t H. apply (turn_distinct m t H). Qed.

Definition wt (u v : nat) : R :=
  match sharing m u v with ta :: tb :: _ => 1 / 2 * (opposite m u v ta + opposite m u v tb) | _ => 0 end.
Lemma wt_sym : forall u v, wt u v = wt v u.
Proof. intros u v. unfold wt. rewrite (sharing_sym _ m u v). destruct (sharing m v u) as [|ta [|tb l]]; auto. rewrite !(opposite_sym _ m u v). reflexivity. Qed.

Definition good (M : coo R) : Prop := valid_coo M /\ cm M = n.
Lemma step_run : forall tb u v s M, length tb = n -> (forall w, trow tb w = incid w (combine (m_tris m) ps) 0) -> (u < n)%nat -> (v < n)%nat -> u <> v -> good M ->
  exists M', cot_step ROps A lm m tb u v (s, M) = Ok (s + wt u v, M') /\ good M' /\
    forall a b, (a <= b)%nat -> (b < n)%nat -> value 0 M' a b = value 0 M a b + (if Nat.eqb a u then if Nat.eqb v b then wt u v else 0 else 0).
Proof.
  intros tb u v s M Lt Rt Hu Hv Nuv [GM GC]. pose proof all_distinct as AD. destruct ready as [WS [HP [_ Hp]]]. pose proof WS as [W1 [W2 W3]].
  assert (LP : length ps = length (m_tris m)) by (rewrite <- (F2_length _ _ _ _ _ HP); auto).
  unfold cot_step. rewrite get_row, Rt by lia. cbn [bind].
  pose proof (common_found A m u v (m_tris m) ps [] eq_refl LP AD) as CF. cbn [length] in CF. rewrite CF. cbn [bind].
  change (filter (both u v) (m_tris m)) with (sharing m u v). unfold wt.
  assert (Z0 : forall a b, (if Nat.eqb a u then if Nat.eqb v b then 0 else 0 else 0) = 0) by (intros; destruct (Nat.eqb a u), (Nat.eqb v b); reflexivity).
  destruct (sharing m u v) as [|ta [|tc l]] eqn:Sh.
  - exists M. rewrite Rplus_0_r. split; auto. split; [split; auto|]. intros a b _ _. rewrite Z0. ring.
  - exists M. rewrite Rplus_0_r. split; auto. split; [split; auto|]. intros a b _ _. rewrite Z0. ring.
  - assert (IN : forall t, t = ta \/ t = tc -> In t (m_tris m) /\ both u v t = true).
    { intros t Ht. assert (K : In t (sharing m u v)) by (rewrite Sh; destruct Ht as [->| ->]; cbn; auto). apply filter_In in K. exact K. }
    assert (ST : forall t, t = ta \/ t = tc -> third_corner u v t = Ok (apex u v t) /\ (apex u v t < n)%nat /\
       cot ROps lm (geomAngle ROps lm (pos m u) (pos m (apex u v t)) (pos m v)) = Ok (opposite m u v t)).
    { intros t Ht. destruct (IN t Ht) as [I1 I2]. assert (D : distinct3 t) by (rewrite Forall_forall in AD; auto). split; [apply third_apex; auto|].
      destruct (apex_corner u v t D Nuv I2) as [C1 _]. rewrite Forall_forall in W1. destruct (W1 t I1) as [X [Y Z]].
      split; [destruct C1 as [->|[->| ->]]; auto|]. apply cot_R. intros E. pose proof (apex_turn A m u v t D Nuv I2) as AT. rewrite E, Rabs_R0 in AT.
      unfold proper in Hp. rewrite Forall_forall in Hp. apply (Hp t I1). destruct (Req_dec (tri_turn m t) 0); auto. apply Rabs_no_R0 in H. congruence. }
    destruct (ST ta (or_introl eq_refl)) as [-> [Ba Ca]]. destruct (ST tc (or_intror eq_refl)) as [-> [Bc Cc]]. cbn [bind].
    rewrite !get_pos by auto. cbn [bind]. rewrite Ca, Cc. cbn [bind]. rewrite half_ok. cbn [bind fst snd].
    change (add ROps) with Rplus. change (mul ROps) with Rmult. change (T ROps) with R. set (w := 1 / 2 * (opposite m u v ta + opposite m u v tc)).
    destruct (Nat.leb_spec u v) as [L|L].
    + destruct (modify_value 0 M u v (fun x => x + w)) as [M' [E [VM [Cm [Vv _]]]]]; auto; [rewrite GC; auto|lia|].
      change (zero ROps) with 0. change (T ROps) with R in *. rewrite E. cbn [bind]. exists M'. split; auto. split; [split; [auto|congruence]|].
      intros a b Hab Hb. rewrite Vv by lia. destruct (at_pos u v a b) eqn:AP.
      * apply at_pos_spec in AP; auto. assert (a = u /\ b = v) as [-> ->] by lia. rewrite !Nat.eqb_refl. reflexivity.
      * destruct (Nat.eqb_spec a u) as [->|]; [|ring]. destruct (Nat.eqb_spec v b) as [->|]; [|ring]. exfalso.
        assert (at_pos u b u b = true) by (apply at_pos_spec; auto). congruence.
    + cbn [bind]. exists M. split; auto. split; [split; auto|]. intros a b Hab Hb.
      destruct (Nat.eqb_spec a u) as [->|]; [|ring]. destruct (Nat.eqb_spec v b) as [->|]; [lia|ring].
Qed.
Lemma row_loop : forall tb u vs s M, length tb = n -> (forall w, trow tb w = incid w (combine (m_tris m) ps) 0) -> (u < n)%nat ->
  (forall v, In v vs -> (v < n)%nat /\ u <> v) -> good M ->
  exists M', forM_list vs (cot_step ROps A lm m tb u) (s, M) = Ok (s + suml vs (wt u), M') /\ good M' /\
    forall a b, (a <= b)%nat -> (b < n)%nat -> value 0 M' a b = value 0 M a b + (if Nat.eqb a u then INR (count b vs) * wt u b else 0).
Proof.
  intros tb u vs. induction vs as [|v vs IH]; intros s M Lt Rt Hu Hv G; cbn [forM_list].
  - exists M. cbn. rewrite Rplus_0_r. split; auto. split; auto. intros a b _ _. destruct (Nat.eqb a u); ring.
  - destruct (Hv v) as [V1 V2]; [cbn; auto|]. destruct (step_run tb u v s M Lt Rt Hu V1 V2 G) as [M1 [E1 [G1 V1']]].
    destruct (IH (s + wt u v) M1 Lt Rt Hu ltac:(intros; apply Hv; cbn; auto) G1) as [M2 [E2 [G2 V2']]].
    exists M2. change (T ROps) with R in *. rewrite E1. cbn [bind]. rewrite E2. split; [rewrite suml_cons; do 2 f_equal; ring|]. split; auto.
    intros a b Hab Hb. rewrite V2', V1' by auto. rewrite count_cons, plus_INR. destruct (Nat.eqb a u); [|ring].
    destruct (Nat.eqb_spec v b) as [->|]; cbn [INR]; ring.
Qed.
(** what ends up in the upper triangle *)
Definition final (a b : nat) : R := if Nat.eqb a b then - suml (around (m_tris m) a) (wt a) else INR (count b (around (m_tris m) a)) * wt a b.
Lemma rows_loop : forall tb nb, length tb = n -> (forall w, trow tb w = incid w (combine (m_tris m) ps) 0) -> length nb = n -> (forall w, trow nb w = around (m_tris m) w) ->
  forall k i M, (i + k <= n)%nat -> good M -> (forall a b, (a <= b)%nat -> (b < n)%nat -> value 0 M a b = if Nat.ltb a i then final a b else 0) ->
  exists M', forM_from k i (fun i M => vs <- get nb i ;; '(sum, M) <- forM_list vs (cot_step ROps A lm m tb i) (zero ROps, M) ;; coo_modify (zero ROps) M i i (fun _ => opp ROps sum)) M = Ok M' /\
    good M' /\ forall a b, (a <= b)%nat -> (b < n)%nat -> value 0 M' a b = if Nat.ltb a (i + k) then final a b else 0.
Proof.
  intros tb nb Lt Rt Ln Rn k. pose proof all_distinct as AD. pose proof ready as [[W1 [W2 W3]] _].
  induction k as [|k IH]; intros i M Hk G HV; cbn [forM_from].
  - exists M. rewrite Nat.add_0_r. auto.
  - rewrite get_row, Rn by lia. cbn [bind].
    destruct (row_loop tb i (around (m_tris m) i) 0 M Lt Rt ltac:(lia)) as [M1 [E1 [[G1 G1c] V1]]]; auto.
    { intros v Hv. split; [eapply around_in; eauto|]. intros <-. pose proof (around_count (m_tris m) i i AD) as C. rewrite Nat.eqb_refl in C.
      apply (in_split) in Hv. destruct Hv as [l1 [l2 Hv]]. rewrite Hv in C. unfold count in C. rewrite filter_app, app_length in C. cbn [filter] in C. rewrite Nat.eqb_refl in C. cbn in C. lia. }
    change (zero ROps) with 0. change (T ROps) with R in *. rewrite E1. cbn [bind]. rewrite Rplus_0_l. change (opp ROps) with Ropp.
    destruct (modify_value 0 M1 i i (fun _ => - suml (around (m_tris m) i) (wt i))) as [M2 [E2 [G2 [Cm [V2 _]]]]]; auto; [rewrite G1c; auto|lia|].
    change (T ROps) with R in *. rewrite E2. cbn [bind].
    destruct (IH (S i) M2) as [M3 [E3 [G3 V3]]]; [lia|split; [auto|congruence]| |].
    + intros a b Hab Hb. rewrite V2 by lia. destruct (at_pos i i a b) eqn:AP.
      * apply at_pos_spec in AP; auto. assert (a = i /\ b = i) as [-> ->] by lia. destruct (Nat.ltb_spec i (S i)); [|lia]. unfold final. rewrite Nat.eqb_refl. reflexivity.
      * rewrite V1, HV by auto. destruct (Nat.eqb_spec a i) as [->|Na].
        -- destruct (Nat.ltb_spec i i); [lia|]. destruct (Nat.ltb_spec i (S i)); [|lia]. unfold final. destruct (Nat.eqb_spec i b) as [<-|]; [|ring].
           assert (at_pos i i i i = true) by (apply at_pos_spec; auto). congruence.
        -- destruct (Nat.ltb_spec a i), (Nat.ltb_spec a (S i)); try lia; ring.
    + exists M3. split; auto. split; auto. intros a b Hab Hb. rewrite V3 by auto. rewrite Nat.add_succ_r. reflexivity.
Qed.
Lemma cot_values : exists S, cd_getFemSystemCotangentWeights ROps A lm m = Ok S /\ valid_system S /\ sdim S = n /\
  (forall a b, (a < n)%nat -> (b < n)%nat -> a <> b -> value 0 (sA R S) a b = INR (length (sharing m a b)) * wt a b) /\
  (forall a, (a < n)%nat -> value 0 (sA R S) a a = - sumn n (fun b => if Nat.eqb a b then 0 else INR (length (sharing m a b)) * wt a b)) /\
  sb R S = repeat 0 n.
Proof.
  pose proof all_distinct as AD. pose proof ready as [WS [HP [Hd Hp]]]. pose proof WS as [W1 [W2 W3]].
  destruct (adjacency_in m ps WS HP Hd) as [tb [E [L R0]]]. destruct (neighbours_rows A m WS deg9) as [nb [En [Ln Rn]]].
  unfold cd_getFemSystemCotangentWeights. rewrite E. cbn [bind]. rewrite En. cbn [bind].
  destruct (rows_loop tb nb L R0 Ln Rn n O (coo_new R n)) as [M [EM [[G Gc] VM]]]; [lia|split; [split; [constructor|intros k v []]|reflexivity]| |].
  { intros a b Hab Hb. destruct (Nat.ltb_spec a 0); [lia|]. reflexivity. }
  unfold forM_up. change (T ROps) with R in *. rewrite EM. cbn [bind]. eexists. split; [reflexivity|]. cbn [sA sb].
  split; [split; [auto|]; cbn [sA sb]; rewrite repeat_length; split; auto|]. split; [unfold sdim; cbn [sb]; apply repeat_length|].
  assert (CN : forall a b, count b (around (m_tris m) a) = if Nat.eqb a b then O else length (sharing m a b)) by (intros; apply around_count; auto).
  assert (UP : forall a b, (a < b)%nat -> (b < n)%nat -> value 0 M a b = INR (length (sharing m a b)) * wt a b).
  { intros a b Hab Hb. rewrite VM by lia. destruct (Nat.ltb_spec a (0 + n)); [|lia]. unfold final. rewrite CN. destruct (Nat.eqb_spec a b); [lia|reflexivity]. }
  split; [|split].
  - intros a b Ha Hb Nab. destruct (Nat.lt_ge_cases a b) as [H|H]; auto.
    replace (value 0 M a b) with (value 0 M b a) by (unfold value; rewrite Nat.min_comm, Nat.max_comm; reflexivity).
    rewrite UP by lia. rewrite (sharing_sym _ m b a), (wt_sym b a). reflexivity.
  - intros a Ha. rewrite VM by lia. destruct (Nat.ltb_spec a (0 + n)); [|lia]. unfold final. rewrite Nat.eqb_refl. f_equal.
    rewrite (sum_by_value n) by (intros c; apply around_in; auto). apply sumn_ext. intros b Hb. rewrite CN. destruct (Nat.eqb a b); [cbn; ring|reflexivity].
  - reflexivity.
Qed.
End Cot.

(** ** compared with the finite element matrix *)
Lemma kloc_opposite : forall A (m : mesh ROps A) u v t, tri_turn m t <> 0 -> u <> v -> both u v t = true -> kloc m t u v = - (1 / 2) * opposite m u v t.
Proof.
  intros A m u v t HD Nuv B. pose proof (turn_distinct m t HD) as D. unfold opposite, cotangent. rewrite (apex_turn A m u v t D Nuv B).
  unfold kloc. destruct (hat_values m t HD) as [X0 [X1 [X2 [Y0 [Y1 Y2]]]]].
  assert (HA : Rabs (tri_turn m t) <> 0) by (apply Rabs_no_R0; auto).
  assert (SQ : Rabs (tri_turn m t) * Rabs (tri_turn m t) = tri_turn m t * tri_turn m t) by (rewrite <- Rabs_mult; apply Rabs_right, Rle_ge, (Rle_0_sqr (tri_turn m t))).
  assert (G : forall N, Rabs (tri_turn m t) / 2 * (N / (tri_turn m t * tri_turn m t)) = N / 2 / Rabs (tri_turn m t)).
  { intros N. rewrite <- SQ. field. auto. }
  assert (G2 : forall N p q r s, p * q + r * s = - N -> Rabs (tri_turn m t) / 2 * (p / tri_turn m t * (q / tri_turn m t) + r / tri_turn m t * (s / tri_turn m t)) = - (1 / 2) * (N / Rabs (tri_turn m t))).
  { intros N p q r s E. replace (p / tri_turn m t * (q / tri_turn m t) + r / tri_turn m t * (s / tri_turn m t)) with ((- N) / (tri_turn m t * tri_turn m t)) by (rewrite <- E; field; auto). rewrite G. field. auto. }
  destruct D as [N1 [N2 N3]]. unfold both, corner_of, corners in B. cbn [existsb] in B. unfold apex, corners. cbn [filter]. rewrite !(Nat.eqb_sym u), !(Nat.eqb_sym v) in B.
  destruct (Nat.eqb_spec (t0 t) u), (Nat.eqb_spec (t1 t) u), (Nat.eqb_spec (t2 t) u); try congruence; cbn [orb andb negb] in *; try discriminate B;
  destruct (Nat.eqb_spec (t0 t) v), (Nat.eqb_spec (t1 t) v), (Nat.eqb_spec (t2 t) v); try congruence; cbn [orb andb negb] in *; try discriminate B; cbn [nth]; subst u v;
  rewrite ?X0, ?X1, ?X2, ?Y0, ?Y1, ?Y2; apply G2; ring.
Qed.
Lemma fem_side : forall A (m : mesh ROps A) (ps : list A) (sigma : A -> R) s a b, fem_ready m ps -> a <> b ->
  (forall t p, In (t, p) (combine (m_tris m) ps) -> corner_of a t = true -> corner_of b t = true -> sigma p = s) ->
  suml (elements m ps) (fun x => kloc m (fst (snd x)) a b * (sigma (snd (snd x)) * m_depth m)) = - (s * m_depth m / 2) * suml (sharing m a b) (opposite m a b).
Proof.
  intros A m ps sigma s a b [WS [HP [_ Hp]]] Nab HS.
  assert (LP : length ps = length (m_tris m)). { destruct WS as [_ [W2 _]]. rewrite <- (F2_length _ _ _ _ _ HP). auto. }
  unfold elements. replace (length (m_tris m)) with (length (combine (m_tris m) ps)) by (rewrite combine_length; lia).
  rewrite (suml_seq_snd _ (combine (m_tris m) ps) 0 (fun tp => kloc m (fst tp) a b * (sigma (snd tp) * m_depth m))).
  unfold sharing. unfold proper in Hp. clear WS HP. revert ps LP HS. induction Hp as [|t l H1 H2 IH]; intros ps LP HS; [cbn; ring|].
  destruct ps as [|p ps]; [discriminate LP|]. cbn [combine filter]. rewrite suml_cons. cbn [fst snd]. change (corner_of a t && corner_of b t) with (both a b t).
  rewrite (IH ps); [|cbn in LP; lia|intros; eapply HS; eauto; cbn; auto]. destruct (both a b t) eqn:B.
  - rewrite suml_cons, kloc_opposite by auto. unfold both in B. apply andb_true_iff in B. destruct B as [B1 B2]. rewrite (HS t p) by (cbn; auto). field.
  - assert (K : kloc m t a b = 0).
    { assert (NC : forall v, corner_of v t = false -> ~ is_corner v t).
      { intros v C [E|[E|E]]; unfold corner_of, corners in C; cbn [existsb] in C; rewrite <- E, Nat.eqb_refl in C; rewrite ?orb_true_r in C; discriminate C. }
      unfold both in B. apply andb_false_iff in B. destruct B as [B|B]; [apply kloc_off; auto|rewrite kloc_sym; apply kloc_off; auto]. }
    rewrite K. ring.
Qed.
