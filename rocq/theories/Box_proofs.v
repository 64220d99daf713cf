(** Bounding box, plot transform and epsilon of a mesh in exact arithmetic. *)
From Coq Require Import String.
From Coq Require Import List Arith ZArith NArith Bool Lia Reals Lra Permutation.
From Verif Require Import Base SumR AlgebraModel AlgebraSpec Coo_proofs Csr_proofs GeometryModel GeometrySpec DrawingModel DrawingSpec Geometry_proofs Segment_proofs Utils_proofs DrawingR_proofs DrawingR2_proofs MeshModel MeshSpec Adjacency_proofs Fem_proofs MeshGeo_proofs.
Import ListNotations.
Local Open Scope R_scope.

Section Box.
Context {A : Type}.
Implicit Types m : mesh ROps A.
Lemma max_loop : forall (b : pt) l (acc : R), exists d, forM_list l (fun p acc => d <- distance ROps p b ;; Ok (fmax ROps acc d)) acc = Ok d /\
  acc <= d /\ (forall p, In p l -> dist p b <= d) /\ (d = acc \/ exists p, In p l /\ dist p b = d).
Proof.
  intros b l. induction l as [|p l IH]; intros acc; cbn [forM_list].
  - exists acc. split; auto. split; [lra|]. split; [intros p []|auto].
  - rewrite distance_R. cbn [bind]. rewrite fmax_R. destruct (IH (Rmax acc (dist p b))) as [d [E [H1 [H2 H3]]]]. exists d. split; [exact E|].
    pose proof (Rmax_l acc (dist p b)). pose proof (Rmax_r acc (dist p b)). split; [lra|]. split.
    + intros q [<-|Hq]; [lra|auto].
    + destruct H3 as [H3|[q [Hq Dq]]]; [|right; exists q; split; [right|]; auto].
      unfold Rmax in H3. destruct (Rle_dec acc (dist p b)); [right; exists p; split; [left; auto|auto]|left; auto].
Qed.
Lemma box_R : forall m, m_points m <> [] -> exists bx by_ d,
  getMeshBoundingBox ROps A m false = Ok (bx - d * (11 / 10), bx + d * (11 / 10), by_ - d * (11 / 10), by_ + d * (11 / 10)) /\
  0 <= d /\ (forall p, In p (m_points m) -> dist p (P bx by_) <= d) /\ (d = 0 \/ exists p, In p (m_points m) /\ dist p (P bx by_) = d).
Proof.
  intros m H. unfold getMeshBoundingBox. change (ofZ ROps 11) with 11. change (ofZ ROps 10) with 10. rewrite Rdiv_ok by lra. cbn [bind].
  unfold vdivs. change (ofZ ROps (Z.of_nat (length (m_points m)))) with (IZR (Z.of_nat (length (m_points m)))). rewrite <- INR_IZR_INZ.
  assert (N : INR (length (m_points m)) <> 0) by (apply not_0_INR; destruct (m_points m); [contradiction|discriminate]).
  rewrite !Rdiv_ok by auto. cbn [bind].
  set (bx := vx (fold_left (vadd ROps) (m_points m) (vzero ROps)) / INR (length (m_points m))).
  set (by_ := vy (fold_left (vadd ROps) (m_points m) (vzero ROps)) / INR (length (m_points m))).
  change (zero ROps) with 0. destruct (max_loop (P bx by_) (m_points m) 0) as [d [E [H1 [H2 H3]]]].
  exists bx, by_, d. unfold P in E. rewrite E. cbn [bind]. split; [reflexivity|]. split; auto.
Qed.
Lemma dist_x : forall p q, Rabs (px p - px q) <= dist p q.
Proof.
  intros p q. unfold dist. rewrite <- sqrt_Rsqr_abs. apply sqrt_le_1; unfold Rsqr; pose proof (sq_nonneg (px p - px q)); pose proof (sq_nonneg (py p - py q)); lra.
Qed.
Lemma dist_y : forall p q, Rabs (py p - py q) <= dist p q.
Proof.
  intros p q. unfold dist. rewrite <- sqrt_Rsqr_abs. apply sqrt_le_1; unfold Rsqr; pose proof (sq_nonneg (px p - px q)); pose proof (sq_nonneg (py p - py q)); lra.
Qed.
Lemma near_coords : forall p bx by_ d, dist p (P bx by_) <= d -> bx - d <= px p <= bx + d /\ by_ - d <= py p <= by_ + d.
Proof.
  intros p bx by_ d H. pose proof (dist_x p (P bx by_)) as X. pose proof (dist_y p (P bx by_)) as Y. rewrite px_P in X. rewrite py_P in Y.
  assert (Rabs (px p - bx) <= d) as X' by lra. assert (Rabs (py p - by_) <= d) as Y' by lra. unfold Rabs in X', Y'. destruct (Rcase_abs (px p - bx)), (Rcase_abs (py p - by_)); lra.
Qed.
Lemma box_contains : forall m, m_points m <> [] -> exists x0 x1 y0 y1, getMeshBoundingBox ROps A m false = Ok (x0, x1, y0, y1) /\
  forall p, In p (m_points m) -> x0 <= px p <= x1 /\ y0 <= py p <= y1.
Proof.
  intros m H. destruct (box_R m H) as [bx [by_ [d [E [D [HP _]]]]]]. do 4 eexists. split; [exact E|]. intros p Hp. apply HP, near_coords in Hp. lra.
Qed.
Lemma box_empty : forall m, m_points m = [] -> is_nonfin (getMeshBoundingBox ROps A m false).
Proof.
  intros m H. unfold getMeshBoundingBox. change (ofZ ROps 11) with 11. change (ofZ ROps 10) with 10. rewrite Rdiv_ok by lra. cbn [bind]. rewrite H. cbn [fold_left length].
  unfold vdivs. cbn [div ROps]. unfold Rdivr. change (ofZ ROps (Z.of_nat 0)) with 0. destruct (Req_EM_T 0 0); [eexists; reflexivity|contradiction].
Qed.
Lemma box_clip : forall m, 0 <= m_radius m -> getMeshBoundingBox ROps A m true = Ok (- (11 / 10 * m_radius m), 11 / 10 * m_radius m, - (11 / 10 * m_radius m), 11 / 10 * m_radius m).
Proof.
  intros m _. unfold getMeshBoundingBox. change (ofZ ROps 11) with 11. change (ofZ ROps 10) with 10. rewrite Rdiv_ok by lra. cbn [bind].
  change (Ok (- (11 / 10) * m_radius m, 11 / 10 * m_radius m, - (11 / 10) * m_radius m, 11 / 10 * m_radius m) = Ok (- (11 / 10 * m_radius m), 11 / 10 * m_radius m, - (11 / 10 * m_radius m), 11 / 10 * m_radius m)).
  assert (E : - (11 / 10) * m_radius m = - (11 / 10 * m_radius m)) by ring. rewrite E. reflexivity.
Qed.
Lemma scale_R : forall m w h, (exists p q, In p (m_points m) /\ In q (m_points m) /\ p <> q) -> 0 < w -> 0 < h ->
  exists xs ys xo yo, getMeshScaleOffset ROps A m w h false = Ok (xs, ys, xo, yo) /\
  forall p, In p (m_points m) -> 0 <= xs * px p + xo <= w /\ 0 <= ys * py p + yo <= h.
Proof.
  intros m w h [p [q [Hp [Hq N]]]] Hw Hh. unfold getMeshScaleOffset.
  destruct (box_R m) as [bx [by_ [d [E [D [HP _]]]]]]; [intros X; rewrite X in Hp; destruct Hp|]. rewrite E. cbn [bind].
  assert (PD : 0 < d).
  { destruct D as [D|D]; auto. exfalso. subst d. apply N. pose proof (HP p Hp) as P1. pose proof (HP q Hq) as Q1.
    transitivity (P bx by_); [|symmetry]; apply dist_zero; apply Rle_antisym; auto; apply dist_nonneg. }
  change (ofZ ROps 9) with 9. change (ofZ ROps 10) with 10. rewrite Rdiv_ok by lra. cbn [bind]. rewrite half_ok. cbn [bind].
  change (sub ROps (bx + d * (11 / 10)) (bx - d * (11 / 10))) with (bx + d * (11 / 10) - (bx - d * (11 / 10))).
  change (sub ROps (by_ + d * (11 / 10)) (by_ - d * (11 / 10))) with (by_ + d * (11 / 10) - (by_ - d * (11 / 10))).
  rewrite fmax_R. replace (Rmax (bx + d * (11 / 10) - (bx - d * (11 / 10))) (by_ + d * (11 / 10) - (by_ - d * (11 / 10)))) with (d * (11 / 5)).
  2:{ unfold Rmax. destruct (Rle_dec _ _); field. }
  rewrite !Rdiv_ok by lra. cbn [bind]. do 4 eexists. split; [reflexivity|]. intros r Hr.
  apply HP, near_coords in Hr. destruct Hr as [[X1 X2] [Y1 Y2]].
  assert (G : forall s b x, 0 < s -> b - d <= x <= b + d -> 0 <= 9 / 10 * s / (d * (11 / 5)) * x + (1 / 2 * s - 1 / 2 * (b + d * (11 / 10) + (b - d * (11 / 10))) * (9 / 10 * s / (d * (11 / 5)))) <= s).
  { intros s b x Hs Hx. replace (9 / 10 * s / (d * (11 / 5)) * x + (1 / 2 * s - 1 / 2 * (b + d * (11 / 10) + (b - d * (11 / 10))) * (9 / 10 * s / (d * (11 / 5))))) with (s * (1 / 2 + 9 / 22 * ((x - b) / d))) by (field; lra).
    assert (K : -1 <= (x - b) / d <= 1).
    { split; apply (Rmult_le_reg_r d); auto; replace ((x - b) / d * d) with (x - b) by (field; lra); lra. }
    split; [apply Rmult_le_pos; lra|]. rewrite <- (Rmult_1_r s) at 2. apply Rmult_le_compat_l; lra. }
  split; [apply (G w bx (px r))|apply (G h by_ (py r))]; auto.
Qed.
Lemma fold_sum : forall l (s : pt), fold_left (vadd ROps) l s = P (px s + sumx l) (py s + sumy l).
Proof.
  intros l. induction l as [|p l IH]; intros s; cbn [fold_left sumx sumy].
  - apply pt_ext; rewrite ?px_P, ?py_P; ring.
  - rewrite IH. change (vadd ROps s p) with (P (px s + px p) (py s + py p)). apply pt_ext; rewrite ?px_P, ?py_P; ring.
Qed.
Lemma const_sum : forall l (q : pt), (forall p, In p l -> p = q) -> sumx l = INR (length l) * px q /\ sumy l = INR (length l) * py q.
Proof.
  intros l q. induction l as [|p l IH]; intros H; [cbn; split; ring|]. rewrite (H p (or_introl eq_refl)) in *. cbn [sumx sumy]. cbn [length]. rewrite S_INR.
  destruct IH as [-> ->]; [intros; apply H; right; auto|]. split; ring.
Qed.
(** a mesh whose vertices all coincide: the scale is not finite *)
Lemma scale_point : forall m w h q, m_points m <> [] -> (forall p, In p (m_points m) -> p = q) -> is_nonfin (getMeshScaleOffset ROps A m w h false).
Proof.
  intros m w h q N H. destruct (const_sum _ q H) as [SX SY]. unfold getMeshScaleOffset, getMeshBoundingBox.
  change (ofZ ROps 11) with 11. change (ofZ ROps 10) with 10. rewrite Rdiv_ok by lra. cbn [bind].
  unfold vdivs. change (ofZ ROps (Z.of_nat (length (m_points m)))) with (IZR (Z.of_nat (length (m_points m)))). rewrite <- INR_IZR_INZ.
  assert (K : INR (length (m_points m)) <> 0) by (apply not_0_INR; destruct (m_points m); [contradiction|discriminate]).
  rewrite !Rdiv_ok by auto. cbn [bind]. rewrite fold_sum, SX, SY.
  change (vx (P (px (vzero ROps) + INR (length (m_points m)) * px q) (py (vzero ROps) + INR (length (m_points m)) * py q))) with (0 + INR (length (m_points m)) * px q).
  change (vy (P (px (vzero ROps) + INR (length (m_points m)) * px q) (py (vzero ROps) + INR (length (m_points m)) * py q))) with (0 + INR (length (m_points m)) * py q).
  replace ((0 + INR (length (m_points m)) * px q) / INR (length (m_points m))) with (px q) by (field; auto).
  replace ((0 + INR (length (m_points m)) * py q) / INR (length (m_points m))) with (py q) by (field; auto).
  change (zero ROps) with 0. destruct (max_loop (P (px q) (py q)) (m_points m) 0) as [d [E [H1 [H2 H3]]]]. unfold P in E. rewrite E. cbn [bind].
  assert (d = 0) as ->.
  { destruct H3 as [H3|[p [Hp Dp]]]; auto. rewrite (H p Hp) in Dp. rewrite <- Dp. replace (P (px q) (py q)) with q; [apply dist_self|]. apply pt_ext; rewrite ?px_P, ?py_P; auto. }
  cbn [bind].
  match goal with |- context [fmax ROps ?a ?b] => change a with (px q + 0 * (11 / 10) - (px q - 0 * (11 / 10))); change b with (py q + 0 * (11 / 10) - (py q - 0 * (11 / 10))) end.
  rewrite fmax_R. replace (Rmax _ _) with 0.
  - cbn [div ROps]. unfold Rdivr. destruct (Req_EM_T 0 0); [eexists; reflexivity|contradiction].
  - unfold Rmax. destruct (Rle_dec _ _); ring.
Qed.

Lemma min_opt_R : forall e (d : R), min_opt ROps e d = Some (match e with None => d | Some e => Rmin e d end).
Proof. intros [e|] d; cbn [min_opt]; [rewrite fmin_R|]; reflexivity. Qed.
Lemma epsilon_R : forall m, Forall (tri_in (length (m_points m))) (m_tris m) -> m_tris m <> [] -> exists e, computeEpsilon ROps A m = Ok e /\
  (exists t u v, In t (m_tris m) /\ edge_of t u v /\ dist (pos m u) (pos m v) = 2 * e) /\
  (forall t u v, In t (m_tris m) -> edge_of t u v -> 2 * e <= dist (pos m u) (pos m v)).
Proof.
  intros m H N. unfold computeEpsilon.
  set (ed := fun ts (x : R) => exists t u v, In t ts /\ edge_of t u v /\ dist (pos m u) (pos m v) = x).
  assert (G : forall ts e, Forall (tri_in (length (m_points m))) ts -> exists e', forM_list ts (fun t e =>
         '(p1, p2, p3) <- tri_points ROps (m_points m) t ;;
         d12 <- distance ROps p1 p2 ;;
         d13 <- distance ROps p1 p3 ;;
         d23 <- distance ROps p2 p3 ;;
         Ok (min_opt ROps (min_opt ROps (min_opt ROps e d12) d13) d23)) e = Ok e' /\
         (e' = None -> ts = [] /\ e = None) /\
         (forall x, e' = Some x -> (e = Some x \/ ed ts x) /\ (forall y, e = Some y \/ ed ts y -> x <= y))).
  { induction ts as [|t ts IH]; intros e HT; cbn [forM_list].
    - exists e. split; auto. split; [auto|]. intros x ->. split; auto. intros y [Y|[t [u [v [[] _]]]]]. injection Y as ->. lra.
    - inversion HT as [|? ? Ht Hts]; subst. rewrite (tri_points_ok A m t Ht). cbn [bind]. rewrite !distance_R. cbn [bind]. rewrite !min_opt_R.
      set (d12 := dist (pos m (t0 t)) (pos m (t1 t))). set (d13 := dist (pos m (t0 t)) (pos m (t2 t))). set (d23 := dist (pos m (t1 t)) (pos m (t2 t))).
      set (x0 := Rmin (Rmin (match e with Some e => Rmin e d12 | None => d12 end) d13) d23).
      assert (L : x0 <= d12 /\ x0 <= d13 /\ x0 <= d23 /\ (forall y, e = Some y -> x0 <= y) /\ (e = Some x0 \/ x0 = d12 \/ x0 = d13 \/ x0 = d23)).
      { unfold x0. destruct e as [y|].
        - pose proof (Rmin_l y d12). pose proof (Rmin_r y d12). pose proof (Rmin_l (Rmin y d12) d13). pose proof (Rmin_r (Rmin y d12) d13).
          pose proof (Rmin_l (Rmin (Rmin y d12) d13) d23). pose proof (Rmin_r (Rmin (Rmin y d12) d13) d23).
          repeat split; try lra; [intros z Z; injection Z as ->; lra|].
          unfold Rmin at 1 4 7 10. destruct (Rle_dec (Rmin (Rmin y d12) d13) d23); [|auto]. unfold Rmin at 1 3 5 7. destruct (Rle_dec (Rmin y d12) d13); [|auto]. unfold Rmin. destruct (Rle_dec y d12); auto.
        - pose proof (Rmin_l d12 d13). pose proof (Rmin_r d12 d13). pose proof (Rmin_l (Rmin d12 d13) d23). pose proof (Rmin_r (Rmin d12 d13) d23).
          repeat split; try lra; [intros z Z; discriminate Z|].
          right. unfold Rmin at 1 3 5. destruct (Rle_dec (Rmin d12 d13) d23); [|auto]. unfold Rmin. destruct (Rle_dec d12 d13); auto. }
      destruct L as [L1 [L2 [L3 [L4 L5]]]].
      destruct (IH (Some x0) Hts) as [e' [E [E1 E2]]]. exists e'. split; [exact E|]. split.
      + intros Z. destruct (E1 Z) as [_ Z2]. discriminate Z2.
      + intros x Hx. destruct (E2 x Hx) as [X1 X2]. split.
        * destruct X1 as [X1|[t' [u [v [I1 [I2 I3]]]]]].
          -- injection X1 as <-. destruct L5 as [L5|L5]; [left; auto|]. right.
             destruct L5 as [L5|[L5|L5]]; rewrite L5; exists t; [exists (t0 t), (t1 t)|exists (t0 t), (t2 t)|exists (t1 t), (t2 t)]; (split; [left; auto|split; [unfold edge_of; auto|auto]]).
          -- right. exists t', u, v. split; [right|]; auto.
        * assert (XX : x <= x0) by (apply X2; auto). intros y [Y|[t' [u [v [[<-|I1] [I2 I3]]]]]].
          -- specialize (L4 y Y). lra.
          -- rewrite <- I3. destruct I2 as [[-> ->]|[[-> ->]|[-> ->]]]; fold d12 d13 d23; lra.
          -- apply X2. right. exists t', u, v. auto. }
  destruct (G (m_tris m) None H) as [e' [E [E1 E2]]]. rewrite E. cbn [bind]. destruct e' as [x|]; [|destruct (E1 eq_refl); contradiction].
  rewrite half_ok. cbn [bind]. change (mul ROps x (1 / 2)) with (x * (1 / 2)). destruct (E2 x eq_refl) as [[X1|X1] X2]; [discriminate X1|].
  exists (x * (1 / 2)). split; auto. assert (X3 : 2 * (x * (1 / 2)) = x) by (clear; change (T ROps) with R in x; lra). rewrite X3. split; auto.
  intros t u v I1 I2. apply X2. right. exists t, u, v. auto.
Qed.
End Box.
