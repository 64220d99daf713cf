(** Proofs about refineMeshAroundMagnets (C82). *)
From Coq Require Import String.
From Coq Require Import List Arith ZArith NArith Bool Lia.
From Coq Require Import Reals Lra.
From Verif Require Import Base SumR AlgebraModel SolversSpec GeometryModel GeometrySpec Geometry_proofs Circle_proofs Polygon_proofs Segment_proofs.
From Verif Require Import DrawingModel DrawingSpec Drawing_proofs DrawingR_proofs DrawingR2_proofs MeshSpec Integral_proofs SetupSpec RefineSpec.
Import ListNotations.
Local Open Scope R_scope.

Section Mag.
Variable lm : libm ROps.
Variable A : Type.
Variable mag : A -> pt.
Notation drawing := (drawing ROps A).
Hypothesis conv : converts lm.
Notation wp := (with_points ROps A).

(** ** the candidates of an edge *)
Lemma clear_R : forall (p : pt) m l, exists b, clear_of ROps p m l = Ok b /\ (b = true <-> forall q, In q l -> m <= dist p q).
Proof.
  intros p m. induction l as [|q l [b [E H]]]; cbn [clear_of].
  - exists true. split; auto. split; auto. intros _ q [].
  - rewrite distance_R. cbn [bind]. change (ltb ROps) with Rltb. destruct (Rltb (dist p q) m) eqn:L.
    + apply Rltb_true in L. exists false. split; auto. split; [discriminate|]. intros K. specialize (K q (or_introl eq_refl)). lra.
    + apply Rltb_false in L. exists b. split; auto. rewrite H. split; intros K x; [intros [<-|Hx]; auto; lra|intros Hx; apply K; right; auto].
Qed.
Lemma ok_R : forall g (d : drawing) m (q : pt), exists b,
  (if poly_contains ROps g q then c1 <- clear_of ROps q m (concat (polygons d)) ;; if c1 : bool then clear_of ROps q m (points d) else Ok false else Ok false) = Ok b /\
  (b = true <-> inside_clear g (polygons d) m (points d) q).
Proof.
  intros g d m q. unfold inside_clear. destruct (poly_contains ROps g q); [|exists false; split; auto; split; [discriminate|intros [H _]; discriminate]].
  destruct (clear_R q m (concat (polygons d))) as [b1 [E1 H1]]. destruct (clear_R q m (points d)) as [b2 [E2 H2]]. rewrite E1. cbn [bind]. destruct b1.
  - exists b2. split; auto. rewrite H2. split.
    + intros K. split; auto. intros x Hx. apply in_app_or in Hx. destruct Hx as [Hx|Hx]; [apply (proj1 H1 eq_refl); auto|auto].
    + intros [_ K] x Hx. apply K. apply in_or_app. auto.
  - exists false. split; auto. split; [discriminate|]. intros [_ K]. apply H1. intros x Hx. apply K. apply in_or_app. auto.
Qed.
Lemma offset_dist : forall a b t h, a <> b -> 0 <= h -> dist (offset a b t h) (offset a b t (- h)) = 2 * h.
Proof.
  intros a b t h N Hh.
  assert (D : 0 < dist a b). { destruct (Rle_lt_or_eq_dec 0 (dist a b) (dist_nonneg a b)) as [|E]; auto. symmetry in E. apply dist_zero in E. congruence. }
  apply Rsqr_inj; [apply dist_nonneg|lra|]. unfold Rsqr. rewrite dist_sq. unfold offset. rewrite !px_P, !py_P.
  pose proof (dist_sq a b) as Q. transitivity (4 * (h * h) * (((px a - px b) * (px a - px b) + (py a - py b) * (py a - py b)) / (dist a b * dist a b))).
  - field. lra.
  - rewrite <- Q. field. lra.
Qed.
Lemma sieve_app : forall ok x c1 y c2 z, sieve ok x c1 y -> sieve ok y c2 z -> sieve ok x (c1 ++ c2) z.
Proof. intros ok x c1 y c2 z H. induction H; cbn [app]; auto; intros K; [apply sieve_take|apply sieve_skip]; auto. Qed.
Lemma push_wp : forall (d : drawing) pts p, push_point ROps A p (wp d pts) = (wp d (pts ++ [p]), Ok tt).
Proof. reflexivity. Qed.
Lemma edge_points_R : forall (d : drawing) g a b m total n j pts, a <> b -> 0 < m -> (j + n = total)%nat ->
  exists pts', edge_points ROps A g a b (vmul ROps (vmul ROps (P (- (py b - py a) / dist a b) ((px b - px a) / dist a b)) m) (11 / 10)) m total n j (wp d pts) = (wp d pts', Ok tt) /\
    sieve (inside_clear g (polygons d) m) pts (flat_map (fun j => [offset a b (INR j / INR total) (11 / 10 * m); offset a b (INR j / INR total) (- (11 / 10 * m))]) (seq j n)) pts'.
Proof.
  intros d g a b m total n. induction n as [|n IH]; intros j pts N Hm Hj; cbn [edge_points seq flat_map].
  - exists pts. split; [reflexivity|constructor].
  - assert (Ht : 0 < INR total) by (apply lt_0_INR; lia).
    unfold mbind at 1, mlift at 1.
    assert (D : div ROps (ofZ ROps (Z.of_nat j)) (ofZ ROps (Z.of_nat total)) = Ok (INR j / INR total)).
    { cbn [div ROps ofZ]. rewrite Rdivr_ok; rewrite <- !INR_IZR_INZ; auto. lra. }
    rewrite D. cbv zeta. set (t := INR j / INR total) in *.
    set (nv := vmul ROps _ _).
    assert (E1 : vadd ROps (lerp ROps a b t) nv = offset a b t (11 / 10 * m)).
    { apply pt_ext; unfold nv, vadd, lerp, offset, vmul; cbn [vx vy add mul sub ROps]; rewrite ?px_P, ?py_P; unfold px, py; cbn [vx vy]; unfold Rdiv; ring. }
    assert (E2 : vminus ROps (lerp ROps a b t) nv = offset a b t (- (11 / 10 * m))).
    { apply pt_ext; unfold nv, vminus, lerp, offset, vmul; cbn [vx vy add mul sub ROps]; rewrite ?px_P, ?py_P; unfold px, py; cbn [vx vy]; unfold Rdiv; ring. }
    rewrite E1, E2. set (p := offset a b t (11 / 10 * m)). set (q := offset a b t (- (11 / 10 * m))).
    unfold mbind at 1, mget at 1. unfold mbind at 1, mlift at 1. destruct (ok_R g (wp d pts) m p) as [b1 [O1 H1]]. rewrite O1.
    unfold mbind at 1, mlift at 1. destruct (ok_R g (wp d pts) m q) as [b2 [O2 H2]]. rewrite O2. cbn [polygons with_points points] in H1, H2.
    unfold mbind at 1.
    set (pts1 := if b1 then pts ++ [p] else pts). set (pts2 := if b2 then pts1 ++ [q] else pts1).
    assert (S1 : (if b1 then push_point ROps A p else mret ROps A tt) (wp d pts) = (wp d pts1, Ok tt)) by (destruct b1; reflexivity).
    rewrite S1. unfold mbind at 1.
    assert (S2 : (if b2 then push_point ROps A q else mret ROps A tt) (wp d pts1) = (wp d pts2, Ok tt)) by (destruct b2; reflexivity).
    rewrite S2. destruct (IH (S j) pts2) as [pts' [R1 R2]]; auto; [lia|]. exists pts'. split; auto.
    assert (K1 : sieve (inside_clear g (polygons d) m) pts [p] pts1).
    { unfold pts1. destruct b1; [apply sieve_take; [apply H1; auto|constructor]|apply sieve_skip; [rewrite <- H1; discriminate|constructor]]. }
    assert (Q : inside_clear g (polygons d) m pts1 q <-> b2 = true).
    { rewrite H2. unfold pts1. destruct b1; [|tauto]. unfold inside_clear. split; intros [I K]; split; auto; intros x Hx; apply in_app_or in Hx; destruct Hx as [Hx|Hx].
      - apply K. apply in_or_app. auto.
      - apply K. apply in_or_app. right. apply in_or_app. auto.
      - apply K. apply in_or_app. auto.
      - apply in_app_or in Hx. destruct Hx as [Hx|[<-|[]]]; [apply K; apply in_or_app; auto|]. unfold p, q. rewrite dist_sym, offset_dist; auto; lra. }
    assert (K2 : sieve (inside_clear g (polygons d) m) pts1 [q] pts2).
    { unfold pts2. destruct b2; [apply sieve_take; [apply Q; auto|constructor]|apply sieve_skip; [rewrite Q; discriminate|constructor]]. }
    change (sieve (inside_clear g (polygons d) m) pts ([p] ++ [q] ++ flat_map (fun j => [offset a b (INR j / INR total) (11 / 10 * m); offset a b (INR j / INR total) (- (11 / 10 * m))]) (seq (S j) n)) pts').
    eapply sieve_app; [exact K1|]. eapply sieve_app; [exact K2|]. exact R2.
Qed.

Lemma normalize_perp : forall a b : pt, a <> b -> normalize ROps (normal ROps (vminus ROps b a)) = Ok (P (- (py b - py a) / dist a b) ((px b - px a) / dist a b)).
Proof.
  intros a b N. assert (D : dist a b <> 0) by (intros E; apply N, dist_zero; auto).
  assert (E : dist (normal ROps (vminus ROps b a)) (P 0 0) = dist a b).
  { apply Rsqr_inj; try apply dist_nonneg. unfold Rsqr. rewrite !dist_sq. unfold normal, vminus, P, px, py. cbn. ring. }
  unfold normalize. rewrite norm_R, E. cbn [bind]. change (eqb ROps) with Reqb. destruct (Reqb (dist a b) (zero ROps)) eqn:Z; [apply Reqb_true in Z; contradiction|].
  cbn [div ROps]. rewrite !Rdivr_ok by auto. reflexivity.
Qed.

(** ** the feature size is not negative and stays defined when points are added *)
Lemma dbl_max_pos : 0 < dbl_max ROps.
Proof.
  cbn [dbl_max ROps]. apply Rmult_lt_0_compat; [|apply pow_lt; lra]. assert (/ 2 ^ 52 < 1); [|lra]. rewrite <- Rinv_1. apply Rinv_lt_contravar; [rewrite Rmult_1_l; apply pow_lt; lra|]. apply Rlt_pow_R1; [lra|lia].
Qed.
Lemma segdist_nonneg : forall p a b x, segment_distance p a b x -> 0 <= x.
Proof. intros p a b x [[q [_ <-]] _]. apply dist_nonneg. Qed.
Lemma wf_wp : forall (d : drawing) l, well_formed d -> well_formed (wp d (points d ++ l)).
Proof.
  intros d l [W1 [W2 W3]]. split; [|split]; auto. intros s Hs. destruct (W1 s Hs). cbn [with_points points]. rewrite app_length. lia.
Qed.
Lemma nd_wp : forall (d : drawing) l, well_formed d -> nondegenerate d -> nondegenerate (wp d (points d ++ l)).
Proof.
  intros d l [W1 _] ND s a b Hs Ha Hb. cbn [with_points points segments] in *. destruct (W1 s Hs). rewrite nth_error_app1 in Ha, Hb by auto. eapply ND; eauto.
Qed.
Lemma eps_wp : forall (d : drawing) l, well_formed d -> nondegenerate d -> exists eps : R, getCurrentEpsilon ROps A (wp d (points d ++ l)) = Ok eps /\ 0 <= eps.
Proof.
  intros d l W ND. destruct (epsilon_R A (wp d (points d ++ l)) (wf_wp d l W) (nd_wp d l W ND)) as [eps [E [_ [_ K]]]]. exists eps. split; auto.
  destruct K as [->|[p [a [b [_ K]]]]]; [pose proof dbl_max_pos; lra|eapply segdist_nonneg; eauto].
Qed.
Lemma sieve_grows : forall ok x c y, sieve ok x c y -> exists l, y = x ++ l.
Proof.
  intros ok x c y H. induction H as [|pts c cs pts' _ _ [l ->]|pts c cs pts' _ _ [l ->]]; [exists []; rewrite app_nil_r; auto| |eauto]. rewrite <- app_assoc. eauto.
Qed.

(** ** the edges of a magnet *)
Lemma refined_app : forall (d : drawing) e1 e2 x y z, edges_refined d e1 x y -> edges_refined d e2 y z -> edges_refined d (e1 ++ e2) x z.
Proof. intros d e1 e2 x y z H. induction H; cbn [app]; auto. intros K. econstructor; eauto. Qed.
Lemma refined_grows : forall (d : drawing) es x y, edges_refined d es x y -> exists l, y = x ++ l.
Proof.
  intros d es x y H. induction H as [|g a b es pts pts' pts'' [eps [n [_ [_ [_ [_ S]]]]]] _ [l ->]]; [exists []; rewrite app_nil_r; auto|].
  apply sieve_grows in S. destruct S as [k ->]. rewrite <- app_assoc. eauto.
Qed.
Lemma nth_edges : forall (g : list pt) i a b, nth_error g i = Some a -> nth_error g (Nat.modulo (i + 1) (length g)) = Some b -> nth_error (edges g) i = Some (a, b).
Proof.
  intros [|x t] i a b Ha Hb; [destruct i; discriminate|]. unfold edges.
  assert (Li : (i < length (x :: t))%nat) by (apply nth_error_Some; congruence).
  assert (Nb : nth_error (t ++ [x]) i = Some b).
  { cbn [length] in *. destruct (Nat.eq_dec i (length t)) as [->|Ne].
    - rewrite nth_error_app2, Nat.sub_diag by lia. replace (length t + 1)%nat with (S (length t)) in Hb by lia. rewrite Nat.mod_same in Hb by lia. exact Hb.
    - rewrite Nat.mod_small in Hb by lia. rewrite nth_error_app1 by lia. replace (i + 1)%nat with (S i) in Hb by lia. exact Hb. }
  clear Hb. revert Ha Nb. generalize (x :: t) as u, (t ++ [x]) as w. clear. induction i as [|i IH]; intros [|c u] [|e w] Ha Hb; cbn in *; try discriminate; [congruence|auto].
Qed.
Lemma skipn_nth : forall X (l : list X) i x, nth_error l i = Some x -> skipn i l = x :: skipn (S i) l.
Proof. intros X. induction l as [|y l IH]; intros [|i] x H; cbn in *; try discriminate; [congruence|]. apply IH; auto. Qed.
Lemma edges_len : forall g : list pt, length (edges g) = length g.
Proof. intros [|x t]; auto. unfold edges. rewrite combine_length, app_length. cbn [length]. lia. Qed.
Lemma magnet_edges_R : forall (d : drawing) g n i l d' r, well_formed d -> nondegenerate d -> (i + n = length g)%nat ->
  magnet_edges ROps lm A g n i (wp d (points d ++ l)) = (d', r) -> runs_edges d (map (fun e => (g, e)) (skipn i (edges g))) (points d ++ l) d' r.
Proof.
  intros d g n. induction n as [|n IH]; intros i l d' r W ND Hi H; cbn [magnet_edges] in H.
  - inversion H; subst. exists [], [], (points d ++ l). rewrite skipn_all2 by (rewrite edges_len; lia). split; auto. split; [constructor|auto].
  - destruct (nth_error g i) as [a|] eqn:Ha; [|apply nth_error_None in Ha; lia].
    assert (Lm : (Nat.modulo (i + 1) (length g) < length g)%nat) by (apply Nat.mod_upper_bound; lia).
    destruct (nth_error g (Nat.modulo (i + 1) (length g))) as [b|] eqn:Hb; [|apply nth_error_None in Hb; lia].
    unfold mbind at 1, mlift at 1 in H. rewrite (get_some _ _ _ _ Ha) in H. unfold mbind at 1, mlift at 1 in H. rewrite (get_some _ _ _ _ Hb) in H.
    unfold mbind at 1, mget at 1 in H. unfold mbind at 1, mlift at 1 in H. destruct (eps_wp d l W ND) as [eps [Ee Pe]]. rewrite Ee in H.
    unfold mbind at 1, mlift at 1 in H.
    assert (D1 : div ROps eps (ofZ ROps 10) = Ok (eps / 10)) by (cbn [div ROps ofZ]; rewrite Rdivr_ok by lra; auto). rewrite D1 in H.
    unfold mbind at 1, mlift at 1 in H. rewrite distance_R in H. unfold mbind at 1, mlift at 1 in H.
    rewrite (skipn_nth _ _ _ _ (nth_edges g i a b Ha Hb)). cbn [map].
    destruct (Req_dec eps 0) as [Z|NZ].
    + subst eps. assert (D2 : exists s, div ROps (dist a b) (0 / 10) = NonFin s).
      { cbn [div ROps]. unfold Rdivr. destruct (Req_EM_T (0 / 10) 0) as [|X]; [eauto|]. exfalso. apply X. field. }
      destruct D2 as [s D2]. rewrite D2 in H. inversion H; subst. exists [], ((g, (a, b)) :: map (fun e => (g, e)) (skipn (S i) (edges g))), (points d ++ l). split; auto. split; [constructor|]. split; auto.
      exists 0. split; auto. left. split; auto. exists s. auto.
    + assert (Pp : 0 < eps) by lra.
      assert (D2 : div ROps (dist a b) (eps / 10) = Ok (dist a b / (eps / 10))) by (cbn [div ROps]; rewrite Rdivr_ok by lra; auto). rewrite D2 in H.
      unfold mbind at 1, mlift at 1 in H. destruct conv as [Ct Cu].
      assert (Q0 : 0 <= dist a b / (eps / 10)) by (apply Rmult_le_pos; [apply dist_nonneg|apply Rlt_le, Rinv_0_lt_compat; lra]).
      destruct (Rlt_le_dec (dist a b / (eps / 10)) (2 ^ 32)) as [Lt|Ge].
      * destruct (Ct _ (conj Q0 Lt)) as [k [Ek Bk]]. rewrite Ek in H. unfold mbind at 1, mlift at 1 in H.
        assert (F : forall pts1 l1, pts1 = points d ++ l1 -> edge_refined d g a b (points d ++ l) pts1 -> magnet_edges ROps lm A g n (S i) (wp d pts1) = (d', r) ->
          runs_edges d ((g, (a, b)) :: map (fun e => (g, e)) (skipn (S i) (edges g))) (points d ++ l) d' r).
        { intros pts1 l1 -> Er Hr. destruct (IH (S i) l1 d' r W ND ltac:(lia) Hr) as [es1 [es2 [pts' [X1 [X2 [X3 X4]]]]]]. exists ((g, (a, b)) :: es1), es2, pts'. rewrite X1. split; auto.
          split; auto. econstructor; eauto. }
        assert (Kn : INR k < 2 ^ 32) by lra.
        destruct (Req_dec (dist a b) 0) as [Dz|Dn].
        -- apply dist_zero in Dz. subst b. assert (k = O).
           { destruct k; auto. exfalso. assert (Z : dist a a = 0) by apply dist_self. rewrite Z in Bk. rewrite S_INR in Bk. pose proof (pos_INR k). assert (Y : 0 / (eps / 10) = 0) by (unfold Rdiv at 1; apply Rmult_0_l). rewrite Y in Bk. lra. }
           subst k. destruct (normalize ROps (normal ROps (vminus ROps a a))) as [v|s|s|s] eqn:Nv.
           2-4: exfalso; replace (normal ROps (vminus ROps a a)) with (P 0 0) in Nv by (apply pt_ext; unfold normal, vminus, P, px, py; cbn; ring); rewrite normalize_zero in Nv; discriminate.
           unfold mbind at 1, mlift at 1 in H. change (div ROps (ofZ ROps 11) (ofZ ROps 10)) with (Rdivr 11 10) in H. rewrite Rdivr_ok in H by lra.
           unfold mbind at 1 in H. cbn [edge_points] in H. unfold mret at 1 in H. apply (F _ l eq_refl); auto. exists eps, O. split; auto. split; auto. split; auto. split; auto. constructor.
        -- assert (Nab : a <> b). { intros ->. apply Dn, dist_self. }
           assert (Nv : normalize ROps (normal ROps (vminus ROps b a)) = Ok (P (- (py b - py a) / dist a b) ((px b - px a) / dist a b))).
           { apply normalize_perp; auto. }
           rewrite Nv in H. unfold mbind at 1, mlift at 1 in H. change (div ROps (ofZ ROps 11) (ofZ ROps 10)) with (Rdivr 11 10) in H. rewrite Rdivr_ok in H by lra.
           unfold mbind at 1 in H.
           destruct (edge_points_R d g a b (eps / 10) k k 0 (points d ++ l) Nab ltac:(lra) eq_refl) as [pts1 [R1 R2]]. 
           change (mul ROps) with Rmult in H. rewrite R1 in H. destruct (sieve_grows _ _ _ _ R2) as [l1 E1]. rewrite <- app_assoc in E1.
           apply (F pts1 (l ++ l1)); auto. exists eps, k. split; auto. split; auto. split; auto. split; auto. unfold places. replace (11 / 100 * eps) with (11 / 10 * (eps / 10)) by field. exact R2.
      * destruct (Cu _ Ge) as [s Es]. rewrite Es in H. inversion H; subst. exists [], ((g, (a, b)) :: map (fun e => (g, e)) (skipn (S i) (edges g))), (points d ++ l). split; auto. split; [constructor|]. split; auto.
        exists eps. split; auto. right. split; auto. split; auto. exists s. auto.
Qed.

Lemma all_magnets_R : forall (d : drawing) gs l d' r, well_formed d -> nondegenerate d ->
  all_magnets ROps lm A gs (wp d (points d ++ l)) = (d', r) -> runs_edges d (all_edges gs) (points d ++ l) d' r.
Proof.
  intros d. induction gs as [|g gs IH]; intros l d' r W ND H; cbn [all_magnets] in H.
  - inversion H; subst. exists [], [], (points d ++ l). split; auto. split; [constructor|auto].
  - unfold mbind at 1 in H. destruct (magnet_edges ROps lm A g (length g) 0 (wp d (points d ++ l))) as [d1 r1] eqn:E1.
    destruct (magnet_edges_R d g (length g) 0 l d1 r1 W ND eq_refl E1) as [es1 [es2 [pts1 [X1 [X2 [X3 X4]]]]]]. cbn [skipn] in X1.
    unfold all_edges. cbn [flat_map]. fold (all_edges gs). rewrite X1. destruct es2 as [|e es2].
    + subst r1 d1. rewrite app_nil_r. destruct (refined_grows _ _ _ _ X2) as [k Ek]. rewrite <- app_assoc in Ek. subst pts1.
      destruct (IH (l ++ k) d' r W ND H) as [fs1 [fs2 [pts2 [Y1 [Y2 [Y3 Y4]]]]]]. exists (es1 ++ fs1), fs2, pts2. rewrite Y1, app_assoc. split; auto. split; auto. eapply refined_app; eauto.
    + assert (Z : d' = d1 /\ r = r1).
      { destruct X4 as [eps [_ [[_ [s ->]]|[_ [_ [s ->]]]]]]; inversion H; subst; auto. }
      destruct Z as [-> ->]. exists es1, (e :: es2 ++ all_edges gs), pts1. rewrite <- app_assoc. split; auto.
Qed.

(** ** which outlines are magnets *)
Definition listed (m : list (nat * list (list pt))) (k : nat) (g : list pt) : Prop := exists l, In (k, l) m /\ In g l.
Fixpoint ascending (lo : nat) (m : list (nat * list (list pt))) : Prop :=
  match m with [] => True | (k, l) :: m' => (lo <= k)%nat /\ ascending (S k) m' end.
Lemma ascending_le : forall m a b, (a <= b)%nat -> ascending b m -> ascending a m.
Proof. intros [|[k l] m] a b H K; cbn in *; auto. split; [lia|tauto]. Qed.
Lemma ascending_in : forall m lo k l, ascending lo m -> In (k, l) m -> (lo <= k)%nat.
Proof. induction m as [|[k0 l0] m IH]; intros lo k l K H; [destruct H|]. cbn in K. destruct K as [K1 K2]. destruct H as [H|H]; [injection H as <- <-; auto|]. specialize (IH _ _ _ K2 H). lia. Qed.
Lemma ascending_one : forall m lo k l l', ascending lo m -> In (k, l) m -> In (k, l') m -> l = l'.
Proof.
  induction m as [|[k0 l0] m IH]; intros lo k l l' K H H'; [destruct H|]. cbn in K. destruct K as [K1 K2]. destruct H as [H|H], H' as [H'|H'].
  - congruence.
  - injection H as <- <-. pose proof (ascending_in _ _ _ _ K2 H'). lia.
  - injection H' as <- <-. pose proof (ascending_in _ _ _ _ K2 H). lia.
  - eapply IH; eauto.
Qed.
Lemma push_ascending : forall m lo id g, ascending lo m -> (lo <= id)%nat -> ascending lo (magmap_push ROps m id g).
Proof.
  induction m as [|[k l] m IH]; intros lo id g K L; cbn [magmap_push]; [cbn; auto|]. cbn in K. destruct K as [K1 K2].
  destruct (Nat.eqb_spec k id) as [->|N]; [cbn; auto|]. destruct (Nat.ltb_spec id k) as [Lt|Ge]; [cbn; auto|]. cbn. split; auto. apply IH; auto; lia.
Qed.
Lemma push_listed : forall m id g k h, listed (magmap_push ROps m id g) k h <-> listed m k h \/ (k = id /\ h = g).
Proof.
  unfold listed. induction m as [|[k0 l0] m IH]; intros id g k h; cbn [magmap_push].
  - split.
    + intros [l [[E|[]] H]]. injection E as <- <-. destruct H as [<-|[]]. auto.
    + intros [[l [[] _]]|[-> ->]]. exists [g]. cbn. auto.
  - destruct (Nat.eqb_spec k0 id) as [->|N].
    + split.
      * intros [l [[E|E] H]].
        -- injection E as <- <-. apply in_app_or in H. destruct H as [H|[<-|[]]]; auto. left. exists l0. cbn. auto.
        -- left. exists l. cbn. auto.
      * intros [[l [[E|E] H]]|[-> ->]].
        -- injection E as <- <-. exists (l0 ++ [g]). split; [left; auto|]. apply in_or_app. auto.
        -- exists l. cbn. auto.
        -- exists (l0 ++ [g]). split; [left; auto|]. apply in_or_app. cbn. auto.
    + destruct (Nat.ltb id k0).
      * split.
        -- intros [l [[E|E] H]]; [injection E as <- <-; destruct H as [<-|[]]; auto|left; exists l; auto].
        -- intros [[l [E H]]|[-> ->]]; [exists l; split; auto; right; auto|exists [g]; cbn; auto].
      * specialize (IH id g k h). split.
        -- intros [l [[E|E] H]]; [injection E as <- <-; left; exists l0; cbn; auto|]. assert (X : exists l, In (k, l) (magmap_push ROps m id g) /\ In h l) by eauto.
           apply IH in X. destruct X as [[l' [L1 L2]]|X]; auto. left. exists l'. cbn. auto.
        -- intros [[l [[E|E] H]]|X].
           ++ injection E as <- <-. exists l0. cbn. auto.
           ++ assert (X : exists l, In (k, l) (magmap_push ROps m id g) /\ In h l) by (apply IH; left; eauto). destruct X as [l' [L1 L2]]. exists l'. cbn. auto.
           ++ assert (Y : exists l, In (k, l) (magmap_push ROps m id g) /\ In h l) by (apply IH; auto). destruct Y as [l' [L1 L2]]. exists l'. cbn. auto.
Qed.
Lemma fold_listed : forall ps (x : pt) id m, ascending 0 m ->
  let m' := fold_left (fun m g => if poly_contains ROps g x then magmap_push ROps m id g else m) ps m in
  ascending 0 m' /\ forall k h, listed m' k h <-> listed m k h \/ (k = id /\ In h ps /\ poly_contains ROps h x = true).
Proof.
  induction ps as [|g ps IH]; intros x id m K; cbn [fold_left]; cbv zeta.
  - split; auto. intros k h. split; auto. intros [H|[_ [[] _]]]; auto.
  - destruct (poly_contains ROps g x) eqn:C.
    + destruct (IH x id (magmap_push ROps m id g)) as [A1 A2]; [apply push_ascending; auto; lia|]. split; auto. intros k h. rewrite A2, push_listed. cbn [In]. split.
      * intros [[H|[-> ->]]|[-> [H1 H2]]]; auto 6.
      * intros [H|[-> [[<-|H1] H2]]]; auto 6.
    + destruct (IH x id m K) as [A1 A2]. split; auto. intros k h. rewrite A2. cbn [In]. split.
      * intros [H|[-> [H1 H2]]]; auto 6.
      * intros [H|[-> [[<-|H1] H2]]]; auto 6. congruence.
Qed.
Lemma neq_zero : forall v : pt, exists b, vec_neqb ROps v (vzero ROps) = Ok b /\ (b = true <-> ~ near v (P 0 0)).
Proof.
  intros v. change (vzero ROps) with (P 0 0). unfold vec_neqb. destruct (vec_eqb ROps v (P 0 0)) as [b|s|s|s] eqn:E; [|rewrite vec_eqb_R in E; discriminate..]. cbn [bind]. exists (negb b). split; auto.
  destruct b; cbn [negb]; split; intros H; auto; try discriminate.
  - exfalso. apply H. apply near_iff. auto.
  - apply not_near_iff. auto.
Qed.
Lemma mag_polygons_R : forall (d : drawing) rs m, (forall r, In r rs -> (snd r < length (region_map d))%nat) -> ascending 0 m ->
  exists m', mag_polygons ROps A mag (region_map d) (polygons d) rs m = Ok m' /\ ascending 0 m' /\
    forall k h, listed m' k h <-> listed m k h \/ exists r v, In r rs /\ snd r = k /\ nth_error (region_map d) k = Some v /\ ~ near (mag v) (P 0 0) /\ In h (polygons d) /\ poly_contains ROps h (fst r) = true.
Proof.
  intros d. induction rs as [|r rs IH]; intros m Hr K; cbn [mag_polygons].
  - exists m. split; auto. split; auto. intros k h. split; auto. intros [H|[r [v [[] _]]]]; auto.
  - destruct (nth_error (region_map d) (snd r)) as [v|] eqn:Ev; [|apply nth_error_None in Ev; pose proof (Hr r (or_introl eq_refl)); lia].
    rewrite (get_some _ _ _ _ Ev). cbn [bind]. destruct (neq_zero (mag v)) as [b [Eb Hb]]. rewrite Eb. cbn [bind].
    assert (Hr' : forall r0, In r0 rs -> (snd r0 < length (region_map d))%nat) by (intros; apply Hr; right; auto).
    destruct b.
    + destruct (fold_listed (polygons d) (fst r) (snd r) m K) as [A1 A2]. destruct (IH _ Hr' A1) as [m' [E1 [E2 E3]]]. exists m'. split; auto. split; auto. intros k h. rewrite E3, A2. split.
      * intros [[H|[-> [H1 H2]]]|[r' [v' [H1 H2]]]]; auto; right; [exists r, v|exists r', v']; (split; [cbn; auto|]); auto. split; auto. split; auto. split; auto. apply Hb; auto.
      * intros [H|[r' [v' [[<-|H1] H2]]]]; auto; [|right; exists r', v'; auto]. destruct H2 as [<- [_ [_ [H3 H4]]]]. auto 6.
    + destruct (IH m Hr' K) as [m' [E1 [E2 E3]]]. exists m'. split; auto. split; auto. intros k h. rewrite E3. split.
      * intros [H|[r' [v' [H1 H2]]]]; auto. right. exists r', v'. split; [right; auto|auto].
      * intros [H|[r' [v' [[<-|H1] H2]]]]; auto; [|right; exists r', v'; auto]. exfalso. destruct H2 as [<- [H2 [H3 _]]]. rewrite Ev in H2. injection H2 as <-. apply Hb in H3. discriminate.
Qed.
Lemma pick_R : forall all l acc, exists ms, pick_magnets ROps all l acc = Ok ms /\ forall g, In g ms <-> In g acc \/ (In g l /\ minimal all g).
Proof.
  intros all. induction l as [|h l IH]; intros acc; cbn [pick_magnets].
  - exists acc. split; auto. intros g. split; auto. intros [H|[[] _]]; auto.
  - destruct (is_magnet_R h all) as [b [Eb Hb]]. rewrite Eb. cbn [bind]. destruct (IH (if b then acc ++ [h] else acc)) as [ms [E1 E2]]. exists ms. split; auto. intros g. rewrite E2. cbn [In]. destruct b.
    + rewrite in_app_iff. cbn [In]. split; [intros [[H|[->|[]]]|[H1 H2]]|intros [H|[[->|H1] H2]]]; auto. right. split; auto. apply Hb; auto.
    + split; [intros [H|[H1 H2]]|intros [H|[[->|H1] H2]]]; auto. apply Hb in H2. discriminate.
Qed.
Lemma not_differ : forall g, ~ differ g g.
Proof.
  intros g [H|[p [q [H K]]]]; [apply H; auto|]. assert (E : p = q). { clear K. induction g as [|x g IH]; [destruct H|]. destruct H as [H|H]; [congruence|auto]. }
  subst q. apply K, near_self.
Qed.
Lemma collect_R : forall m acc, (forall k l g, In (k, l) m -> In g l -> g <> []) ->
  exists ms, collect_magnets ROps m acc = Ok ms /\ forall g, In g ms <-> In g acc \/ exists k l, In (k, l) m /\ In g l /\ minimal l g.
Proof.
  induction m as [|[k l] m IH]; intros acc NE; cbn [collect_magnets].
  - exists acc. split; auto. intros g. split; auto. intros [H|[k [l [[] _]]]]; auto.
  - assert (NE' : forall k l g, In (k, l) m -> In g l -> g <> []) by (intros; eapply NE; [right; eauto|eauto]).
    assert (ST : forall acc', (forall g, In g acc' <-> In g acc \/ (In g l /\ minimal l g)) -> exists ms, collect_magnets ROps m acc' = Ok ms /\
      forall g, In g ms <-> In g acc \/ exists k0 l0, In (k0, l0) ((k, l) :: m) /\ In g l0 /\ minimal l0 g).
    { intros acc' Ha. destruct (IH acc' NE') as [ms [E1 E2]]. exists ms. split; auto. intros g. rewrite E2, Ha. split.
      - intros [[H|H]|[k0 [l0 [H1 H2]]]]; auto; right; [exists k, l; cbn; auto|exists k0, l0; cbn; auto].
      - intros [H|[k0 [l0 [[H1|H1] H2]]]]; auto; [injection H1 as <- <-; auto|right; eauto]. }
    destruct l as [|h [|h2 l2]].
    + cbn. apply ST. intros g. split; auto. intros [H|[[] _]]; auto.
    + apply ST. intros g. rewrite in_app_iff. split.
      * intros [H|H]; auto. right. apply repeat_spec in H. subst g. split; [left; auto|]. intros x [<-|[]] D. exfalso. eapply not_differ; eauto.
      * intros [H|[[<-|[]] _]]; auto. right. pose proof (NE k [h] h (or_introl eq_refl) (or_introl eq_refl)) as N. destruct h; [congruence|]. left. auto.
    + destruct (pick_R (h :: h2 :: l2) (h :: h2 :: l2) acc) as [acc' [E1 E2]]. rewrite E1. cbn [bind]. apply ST. exact E2.
Qed.
Lemma magnets_R : forall d : drawing, well_formed d -> exists ms, magnets_of ROps A mag d = Ok ms /\ forall g, In g ms <-> magnet mag d g.
Proof.
  intros d [_ [_ W]]. unfold magnets_of. destruct (mag_polygons_R d (regions d) [] W I) as [m [E1 [E2 E3]]]. rewrite E1. cbn [bind].
  assert (NL : forall k h, ~ listed [] k h) by (intros k h [l [[] _]]).
  destruct (collect_R m []) as [ms [F1 F2]].
  { intros k l g H1 H2 ->. assert (X : listed m k []) by (exists l; auto). apply E3 in X. destruct X as [X|[r [v [_ [_ [_ [_ [_ X]]]]]]]]; [eapply NL; eauto|]. cbn in X. discriminate. }
  exists ms. split; auto. intros g. rewrite F2.
  assert (LK : forall k h, listed m k h <-> exists v, nth_error (region_map d) k = Some v /\ ~ near (mag v) (P 0 0) /\ around_seed d k h).
  { intros k h. rewrite E3. unfold around_seed. split.
    - intros [H|[r [v [H1 [H2 [H3 [H4 [H5 H6]]]]]]]]; [exfalso; eapply NL; eauto|]. exists v. split; auto. split; auto. split; auto. exists r. auto.
    - intros [v [H1 [H2 [H3 [r [H4 [H5 H6]]]]]]]. right. exists r, v. auto 7. }
  split.
  - intros [[]|[k [l [H1 [H2 H3]]]]]. assert (X : listed m k g) by (exists l; auto). apply LK in X. destruct X as [v [X1 [X2 X3]]]. exists k, v. split; auto. split; auto. split; auto.
    intros h Hh D. apply H3; auto. assert (Y : listed m k h) by (apply LK; eauto). destruct Y as [l' [Y1 Y2]]. rewrite (ascending_one m 0 k l l'); auto.
  - intros [k [v [H1 [H2 [H3 H4]]]]]. right. assert (X : listed m k g) by (apply LK; eauto). destruct X as [l [X1 X2]]. exists k, l. split; auto. split; auto.
    intros h Hh D. apply H4; auto. assert (Y : listed m k h) by (exists l; auto). apply LK in Y. destruct Y as [v' [_ [_ Y]]]. exact Y.
Qed.
Lemma wp_self : forall d : drawing, wp d (points d ++ []) = d.
Proof. intros [rm rg ps sg pl]. unfold with_points. cbn. rewrite app_nil_r. auto. Qed.
Lemma refine_magnets_R : forall (d d' : drawing) r, well_formed d -> nondegenerate d -> refineMeshAroundMagnets ROps lm A mag d = (d', r) ->
  exists gs, (forall g, In g gs <-> magnet mag d g) /\ runs_edges d (all_edges gs) (points d) d' r.
Proof.
  intros d d' r W ND H. unfold refineMeshAroundMagnets in H. unfold mbind at 1, mget at 1 in H. unfold mbind at 1, mlift at 1 in H.
  destruct (magnets_R d W) as [ms [E1 E2]]. rewrite E1 in H. exists ms. split; auto. rewrite <- (app_nil_r (points d)). apply all_magnets_R; auto. rewrite wp_self. exact H.
Qed.
End Mag.
