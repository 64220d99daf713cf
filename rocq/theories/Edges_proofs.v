(** The edge map of the force integrals: contents, and when the field errors can be computed. *)
From Coq Require Import String.
From Coq Require Import List Arith ZArith NArith Bool Lia Permutation.
From Coq Require Import Reals Lra.
From Verif Require Import Base SumR AlgebraModel AlgebraSpec GeometryModel GeometrySpec DrawingModel DrawingSpec MeshModel MeshSpec ForceModel ForceSpec.
From Verif Require Import Geometry_proofs Fem_proofs MeshGeo_proofs Integral_proofs.
Import ListNotations.

(** ** the map *)
Lemma edge_eqb_spec : forall e f, reflect (e = f) (edge_eqb e f).
Proof.
  intros [a b] [c d]. unfold edge_eqb. cbn [fst snd].
  destruct (Nat.eqb_spec a c), (Nat.eqb_spec b d); cbn; constructor; congruence.
Qed.
Lemma edge_look_put : forall m e l f, edge_look (edge_put m e l) f = if edge_eqb f e then l else edge_look m f.
Proof.
  induction m as [|[g k] m IH]; intros e l f; cbn; auto.
  destruct (edge_eqb_spec e g).
  - subst. cbn. destruct (edge_eqb_spec f g); auto.
  - cbn. rewrite IH. destruct (edge_eqb_spec f g), (edge_eqb_spec f e); subst; auto; congruence.
Qed.

Definition push_pair (ei : (nat * nat) * nat) (m : edge_map) : res edge_map := edge_push m (fst ei) (snd ei).
Definition occ (m : edge_map) (ps : list ((nat * nat) * nat)) (e : nat * nat) : list nat :=
  edge_look m e ++ map snd (filter (fun p => edge_eqb e (fst p)) ps).
Lemma occ_cons : forall m p ps e m', (forall f, edge_look m' f = edge_look m f ++ (if edge_eqb f (fst p) then [snd p] else [])) ->
  occ m (p :: ps) e = occ m' ps e.
Proof. intros m p ps e m' H. unfold occ. rewrite H. cbn [filter]. destruct (edge_eqb e (fst p)); cbn; rewrite <- app_assoc; reflexivity. Qed.
Lemma push_look : forall m e i, length (edge_look m e) < 2 -> exists m', edge_push m e i = Ok m' /\
  forall f, edge_look m' f = edge_look m f ++ (if edge_eqb f e then [i] else []).
Proof.
  intros m e i H. unfold edge_push. destruct (Nat.leb_spec 2 (length (edge_look m e))); [lia|].
  eexists. split; [reflexivity|]. intros f. rewrite edge_look_put. destruct (edge_eqb_spec f e); [subst; auto|]. rewrite app_nil_r. auto.
Qed.
Lemma push_all : forall ps m, (forall e, length (occ m ps e) <= 2) -> exists m', forM_list ps push_pair m = Ok m' /\ forall e, edge_look m' e = occ m ps e.
Proof.
  induction ps as [|p ps IH]; intros m H.
  - exists m. split; [reflexivity|]. intros e. unfold occ. cbn. rewrite app_nil_r. auto.
  - cbn [forM_list]. unfold push_pair at 1. destruct (push_look m (fst p) (snd p)) as [m1 [E L]].
    { specialize (H (fst p)). unfold occ in H. cbn [filter] in H. destruct (edge_eqb_spec (fst p) (fst p)); [|congruence].
      cbn in H. rewrite app_length in H. cbn in H. lia. }
    rewrite E. cbn [bind]. destruct (IH m1) as [m2 [E2 L2]].
    { intros e. rewrite <- (occ_cons m p ps e m1) by auto. apply H. }
    exists m2. split; auto. intros e. rewrite L2. symmetry. apply occ_cons; auto.
Qed.
Lemma push_over : forall ps m e, length (edge_look m e) <= 2 -> 2 < length (occ m ps e) -> is_ub (forM_list ps push_pair m).
Proof.
  induction ps as [|p ps IH]; intros m e H K.
  - unfold occ in K. cbn in K. rewrite app_nil_r in K. lia.
  - cbn [forM_list]. unfold push_pair at 1. destruct (Nat.ltb_spec (length (edge_look m (fst p))) 2) as [L|L].
    + destruct (push_look m (fst p) (snd p) L) as [m1 [E L1]]. rewrite E. cbn [bind]. apply (IH m1 e).
      * rewrite L1. destruct (edge_eqb_spec e (fst p)); [subst; rewrite app_length; cbn; lia|]. rewrite app_nil_r. auto.
      * rewrite <- (occ_cons m p ps e m1) by auto. auto.
    + unfold edge_push. destruct (Nat.leb_spec 2 (length (edge_look m (fst p)))); [|lia]. cbn. eexists; reflexivity.
Qed.

Definition tri_pairs (i : nat) (t : tri) : list ((nat * nat) * nat) := map (fun s => (edge (fst s) (snd s), i)) (sides t).
Fixpoint all_pairs (i : nat) (l : list tri) : list ((nat * nat) * nat) :=
  match l with [] => [] | t :: l' => tri_pairs i t ++ all_pairs (S i) l' end.
Lemma edge_loop_pairs : forall l i m, edge_loop l i m = forM_list (all_pairs i l) push_pair m.
Proof.
  induction l as [|t l IH]; intros i m; cbn [edge_loop all_pairs]; auto.
  rewrite forM_list_app.
  assert (E : forall s (m : edge_map), forM_list s (fun s m => edge_push m (edge (fst s) (snd s)) i) m = forM_list (map (fun s => (edge (fst s) (snd s), i)) s) push_pair m).
  { induction s as [|x s IHs]; intros m1; cbn [forM_list map]; auto. unfold push_pair at 1. cbn [fst snd].
    destruct (edge_push m1 (edge (fst x) (snd x)) i); cbn [bind]; auto. }
  unfold tri_pairs. rewrite <- E. destruct (forM_list (sides t) _ m) as [m1| | |]; cbn [bind]; auto.
Qed.

(** ** numbers of the triangles with a property *)
Fixpoint idx (k : nat) (P : tri -> bool) (l : list tri) : list nat :=
  match l with [] => [] | t :: l' => (if P t then [k] else []) ++ idx (S k) P l' end.
Lemma idx_filter : forall P l k, filter (fun i => P (nth (i - k) l (0, 0, 0))) (seq k (length l)) = idx k P l.
Proof.
  induction l as [|t l IH]; intros k; auto. cbn [length seq filter idx]. rewrite Nat.sub_diag. cbn [nth]. rewrite <- IH.
  rewrite (filter_ext_in (fun i => P (nth (i - k) (t :: l) (0, 0, 0))) (fun i => P (nth (i - S k) l (0, 0, 0)))).
  - destruct (P t); reflexivity.
  - intros i Hi. apply in_seq in Hi. replace (i - k) with (S (i - S k)) by lia. reflexivity.
Qed.
Lemma sharing_idx : forall ts u v, sharing ts u v = idx 0 (fun t => has_corner t u && has_corner t v) ts.
Proof.
  intros. rewrite <- idx_filter. unfold sharing. apply filter_ext. intros i. rewrite Nat.sub_0_r. reflexivity.
Qed.
Lemma has_corner_in : forall t v, has_corner t v = true <-> In v (corners t).
Proof.
  intros. unfold has_corner. rewrite existsb_exists. split.
  - intros [x [I E]]. apply Nat.eqb_eq in E. subst; auto.
  - intros I. exists v. split; auto. apply Nat.eqb_refl.
Qed.
Lemma sharing_in : forall ts u v i, In i (sharing ts u v) <-> (i < length ts /\ In u (corners (nth i ts (0, 0, 0))) /\ In v (corners (nth i ts (0, 0, 0)))).
Proof.
  intros. unfold sharing. rewrite filter_In, in_seq, andb_true_iff, !has_corner_in. split; intros; intuition lia.
Qed.
Lemma sharing_nodup : forall ts u v, NoDup (sharing ts u v).
Proof. intros. apply NoDup_filter, seq_NoDup. Qed.
Lemma sharing_comm : forall ts u v, sharing ts u v = sharing ts v u.
Proof. intros. unfold sharing. apply filter_ext. intros i. apply andb_comm. Qed.

Lemma edge_comm : forall a b, edge a b = edge b a.
Proof. intros. unfold edge. destruct (Nat.ltb_spec a b), (Nat.ltb_spec b a); auto; try lia. assert (a = b) by lia. subst; auto. Qed.
Lemma edge_same : forall a b u v, edge a b = edge u v <-> (a = u /\ b = v) \/ (a = v /\ b = u).
Proof.
  intros. unfold edge. destruct (Nat.ltb_spec a b), (Nat.ltb_spec u v); split; intros H1; try (injection H1 as -> ->); auto;
  destruct H1 as [[-> ->]|[-> ->]]; try lia; auto. assert (u = v) by lia. subst; auto.
Qed.
Lemma tri_occ : forall i t u v, three_corners t -> u <> v ->
  map snd (filter (fun p => edge_eqb (edge u v) (fst p)) (tri_pairs i t)) = if has_corner t u && has_corner t v then [i] else [].
Proof.
  intros i [[a b] c] u v [D1 [D2 D3]] N. unfold tri_pairs, sides, has_corner, corners, t0, t1, t2 in *. cbn [fst snd map existsb filter] in *.
  rewrite !orb_false_r.
  assert (E : forall x y, edge_eqb (edge u v) (edge x y) = (Nat.eqb u x && Nat.eqb v y) || (Nat.eqb u y && Nat.eqb v x)).
  { intros x y. destruct (edge_eqb_spec (edge u v) (edge x y)) as [K|K].
    - apply edge_same in K. destruct K as [[-> ->]|[-> ->]]; rewrite !Nat.eqb_refl; cbn; auto. rewrite orb_true_r; auto.
    - destruct (Nat.eqb_spec u x), (Nat.eqb_spec v y), (Nat.eqb_spec u y), (Nat.eqb_spec v x); subst; cbn; auto; exfalso; apply K; apply edge_same; auto. }
  rewrite !E.
  destruct (Nat.eqb_spec u a), (Nat.eqb_spec u b), (Nat.eqb_spec u c), (Nat.eqb_spec v a), (Nat.eqb_spec v b), (Nat.eqb_spec v c);
    subst; cbn; auto; congruence.
Qed.
Lemma all_occ : forall l i u v, Forall three_corners l -> u <> v ->
  map snd (filter (fun p => edge_eqb (edge u v) (fst p)) (all_pairs i l)) = idx i (fun t => has_corner t u && has_corner t v) l.
Proof.
  induction l as [|t l IH]; intros i u v H N; auto. inversion H; subst. cbn [all_pairs idx].
  rewrite filter_app, map_app, IH by auto. rewrite tri_occ; auto.
Qed.
(** an edge key of the pairs joins two different vertices *)
Lemma all_keys : forall l i p, Forall three_corners l -> In p (all_pairs i l) -> exists u v, u <> v /\ fst p = edge u v.
Proof.
  induction l as [|t l IH]; intros i p H I; [destruct I|]. inversion H; subst. cbn [all_pairs] in I. apply in_app_or in I. destruct I as [I|I]; eauto.
  unfold tri_pairs, sides in I. destruct H2 as [D1 [D2 D3]]. cbn in I.
  destruct I as [<-|[<-|[<-|[]]]]; cbn; eauto.
Qed.
Lemma edge_loop_ok : forall ts, Forall three_corners ts -> (forall u v, u <> v -> length (sharing ts u v) <= 2) ->
  exists em, edge_loop ts 0 [] = Ok em /\ forall u v, u <> v -> edge_look em (edge u v) = sharing ts u v.
Proof.
  intros ts H3 H2. rewrite edge_loop_pairs. destruct (push_all (all_pairs 0 ts) []) as [em [E L]].
  - intros e. unfold occ. cbn [edge_look app].
    destruct (filter (fun p => edge_eqb e (fst p)) (all_pairs 0 ts)) as [|p q] eqn:F; [cbn; lia|].
    assert (I : In p (filter (fun p => edge_eqb e (fst p)) (all_pairs 0 ts))) by (rewrite F; left; auto).
    apply filter_In in I. destruct I as [I K]. destruct (edge_eqb_spec e (fst p)); [|discriminate].
    destruct (all_keys _ _ _ H3 I) as [u [v [N Q]]]. rewrite <- F. rewrite e0, Q. rewrite all_occ by auto. rewrite <- sharing_idx. auto.
  - exists em. split; auto. intros u v N. rewrite L. unfold occ. cbn [edge_look app]. rewrite all_occ by auto. symmetry. apply sharing_idx.
Qed.
Lemma edge_loop_over : forall ts u v, Forall three_corners ts -> u <> v -> 2 < length (sharing ts u v) -> is_ub (edge_loop ts 0 []).
Proof.
  intros ts u v H3 N H. rewrite edge_loop_pairs. apply (push_over _ _ (edge u v)); [cbn; lia|].
  unfold occ. cbn [edge_look app]. rewrite all_occ by auto. rewrite <- sharing_idx. auto.
Qed.

(** ** results that are values or undefined *)
Definition okub {A} (r : res A) : Prop := is_ok r \/ is_ub r.
Lemma okub_bind : forall A B (r : res A) (f : A -> res B), okub r -> (forall a, r = Ok a -> okub (f a)) -> okub (bind r f).
Proof. intros A B r f [[a ->]|[s ->]] H; cbn; auto. right. eexists; reflexivity. Qed.
Lemma okub_get : forall A (l : list A) i, okub (get l i).
Proof. intros. unfold get. destruct (nth_error l i); [left|right]; eexists; reflexivity. Qed.
Lemma okub_list : forall A S (f : A -> S -> res S) l s, (forall x s, In x l -> okub (f x s)) -> okub (forM_list l f s).
Proof.
  induction l as [|x l IH]; intros s H; cbn; [left; eexists; reflexivity|]. apply okub_bind; [apply H; left; auto|]. intros; apply IH. intros; apply H; right; auto.
Qed.
Lemma ub_list : forall A S (f : A -> S -> res S) l s x, (forall x s, In x l -> okub (f x s)) -> In x l -> (forall s, is_ub (f x s)) -> is_ub (forM_list l f s).
Proof.
  induction l as [|y l IH]; intros s x H I U; [destruct I|]. cbn. destruct I as [->|I].
  - destruct (U s) as [w ->]. eexists; reflexivity.
  - destruct (H y s (or_introl eq_refl)) as [[a ->]|[w ->]]; cbn; [|eexists; reflexivity]. apply (IH a x); auto. intros; apply H; right; auto.
Qed.

Local Open Scope R_scope.
Section OnR.
Variable A : Type.
Variable m : mesh ROps A.
Variable B : list pt.
Notation n := (length (m_points m)).
Notation ts := (m_tris m).

Lemma normal_len : forall w : pt, exists k, normalize ROps (normal ROps w) = Ok k /\
  px k * sqrt (norm2 w) = - py w /\ py k * sqrt (norm2 w) = px w.
Proof using.
  clear. intros w. unfold normalize, GeometryModel.norm. cbn [fsqrt ROps].
  assert (E : normSquared ROps (normal ROps w) = norm2 w).
  { change (px (normal ROps w) * px (normal ROps w) + py (normal ROps w) * py (normal ROps w) = norm2 w). rewrite normal_x, normal_y. unfold norm2. ring. }
  assert (G : 0 <= norm2 w) by (unfold norm2; nra).
  rewrite E. rewrite Rsqrtr_ok by auto. cbn [bind eqb ROps zero]. destruct (Reqb (sqrt (norm2 w)) 0) eqn:Q.
  - apply Reqb_true in Q. exists (normal ROps w). split; auto. rewrite normal_x, normal_y, Q. apply sqrt_eq_0 in Q; auto. unfold norm2 in Q.
    assert (px w = 0 /\ py w = 0) as [-> ->] by (split; nra). split; ring.
  - apply Reqb_false in Q. cbn [div ROps]. rewrite !Rdivr_ok by auto. cbn [bind]. eexists. split; [reflexivity|].
    cbn [px py vx vy]. split; unfold px, py; cbn [vx vy normal]; cbn; field; auto.
Qed.
Lemma side_value : forall em i (Bi : pt) u v err j, (u < n)%nat -> (v < n)%nat -> (j < length B)%nat -> i <> j ->
  (edge_look em (edge u v) = [i; j] \/ edge_look em (edge u v) = [j; i]) ->
  side_error ROps A m em B i Bi (u, v) err = Ok (err - along_side m u v (minus_pt (field B j) Bi)).
Proof using.
  intros em i Bi u v err j Hu Hv Hj N L. unfold side_error. cbn [fst snd]. rewrite !get_pos by auto. cbn [bind].
  rewrite distance_R. cbn [bind]. destruct (normal_len (vminus ROps (pos m v) (pos m u))) as [k [-> [K1 K2]]]. cbn [bind].
  assert (Q : sqrt (norm2 (vminus ROps (pos m v) (pos m u))) = dist (pos m u) (pos m v)).
  { unfold dist, norm2. f_equal. change (px (vminus ROps (pos m v) (pos m u))) with (px (pos m v) - px (pos m u)).
    change (py (vminus ROps (pos m v) (pos m u))) with (py (pos m v) - py (pos m u)). ring. }
  rewrite Q in *. change (px (vminus ROps (pos m v) (pos m u))) with (px (pos m v) - px (pos m u)) in *.
  change (py (vminus ROps (pos m v) (pos m u))) with (py (pos m v) - py (pos m u)) in *.
  assert (F : exists a1 a2, edge_look em (edge u v) = [a1; a2] /\ (if Nat.eqb a1 i then a2 else a1) = j).
  { destruct L as [L|L]; [exists i, j|exists j, i]; (split; [auto|]). rewrite Nat.eqb_refl; auto. destruct (Nat.eqb_spec j i); auto; congruence. }
  destruct F as [a1 [a2 [-> J]]]. cbn [get nth_error bind]. rewrite J. rewrite (get_lt _ B j org) by auto. cbn [bind]. apply f_equal.
  change (err + (px k * (py (field B j) - py Bi) - py k * (px (field B j) - px Bi)) * dist (pos m u) (pos m v) = err - along_side m u v (minus_pt (field B j) Bi)).
  unfold along_side, minus_pt. rewrite px_P, py_P.
  replace ((px k * (py (field B j) - py Bi) - py k * (px (field B j) - px Bi)) * dist (pos m u) (pos m v)) with
    (px k * dist (pos m u) (pos m v) * (py (field B j) - py Bi) - py k * dist (pos m u) (pos m v) * (px (field B j) - px Bi)) by ring.
  rewrite K1, K2. ring.
Qed.
Lemma side_okub : forall em i Bi s err, okub (side_error ROps A m em B i Bi s err).
Proof using.
  intros. unfold side_error. apply okub_bind; [apply okub_get|]. intros v1 _. apply okub_bind; [apply okub_get|]. intros v2 _.
  rewrite distance_R. cbn [bind]. destruct (normal_len (vminus ROps v2 v1)) as [k [-> _]]. cbn [bind].
  apply okub_bind; [apply okub_get|]. intros a1 _. apply okub_bind; [apply okub_get|]. intros a2 _. apply okub_bind; [apply okub_get|]. intros b _. left; eexists; reflexivity.
Qed.
Lemma side_alone : forall em i Bi s err, length (edge_look em (edge (fst s) (snd s))) = 1%nat -> is_ub (side_error ROps A m em B i Bi s err).
Proof using.
  intros em i Bi s err L. unfold side_error. destruct (okub_get _ (m_points m) (fst s)) as [[v1 ->]|[w ->]]; [|eexists; reflexivity]. cbn [bind].
  destruct (okub_get _ (m_points m) (snd s)) as [[v2 ->]|[w ->]]; [|eexists; reflexivity]. cbn [bind].
  rewrite distance_R. cbn [bind]. destruct (normal_len (vminus ROps v2 v1)) as [k [-> _]]. cbn [bind].
  destruct (edge_look em (edge (fst s) (snd s))) as [|x [|y l]]; try discriminate. cbn. eexists; reflexivity.
Qed.
Lemma norm_any : forall p : pt, GeometryModel.norm ROps p = Ok (sqrt (norm2 p)).
Proof using. clear. intros p. unfold GeometryModel.norm. cbn [fsqrt ROps]. change (normSquared ROps p) with (norm2 p). apply Rsqrtr_ok. unfold norm2; nra. Qed.
Lemma elem_okub : forall em i t, tri_in n t -> okub (elem_error ROps A m em B i t).
Proof using.
  intros em i t Ht. unfold elem_error. cbn [div ROps one]. cbn [ofZ ROps]. rewrite Rdivr_ok by lra. cbn [bind].
  apply okub_bind; [apply okub_get|]. intros Bi _. rewrite norm_any. cbn [bind]. rewrite tri_points_ok by auto. cbn [bind].
  apply okub_list. intros; apply side_okub.
Qed.
Lemma elem_alone : forall em i t u v, tri_in n t -> three_corners t -> In u (corners t) -> In v (corners t) -> u <> v ->
  length (edge_look em (edge u v)) = 1%nat -> is_ub (elem_error ROps A m em B i t).
Proof using.
  intros em i t u v Ht D Iu Iv N L. unfold elem_error. cbn [div ROps one]. cbn [ofZ ROps]. rewrite Rdivr_ok by lra. cbn [bind].
  destruct (okub_get _ B i) as [[Bi ->]|[w ->]]; [|eexists; reflexivity]. cbn [bind]. rewrite norm_any. cbn [bind]. rewrite tri_points_ok by auto. cbn [bind].
  assert (S0 : forall a b c, In u [a; b; c] -> In v [a; b; c] -> exists s, In s (sides (a, b, c)) /\ edge (fst s) (snd s) = edge u v).
  { intros a b c Ju Jv. unfold sides, t0, t1, t2. cbn [fst snd]. cbn in Ju, Jv.
    destruct Ju as [<-|[<-|[<-|[]]]], Jv as [<-|[<-|[<-|[]]]]; try congruence;
    match goal with |- exists s, _ /\ _ = edge ?x ?y => first [exists (x, y); split; [cbn; tauto|reflexivity]|exists (y, x); split; [cbn; tauto|apply edge_comm]] end. }
  assert (exists s, In s (sides (if ltb ROps (doubleOrientedArea ROps (pos m (t0 t)) (pos m (t1 t)) (pos m (t2 t))) (zero ROps) then (t1 t, t0 t, t2 t) else t)) /\ edge (fst s) (snd s) = edge u v) as [s [Is Es]].
  { destruct t as [[a b] c]. unfold t0, t1, t2, corners in *. cbn [fst snd] in *. destruct (ltb ROps _ _); apply S0; auto; cbn in *; tauto. }
  eapply ub_list; [intros; apply side_okub|exact Is|]. intros s'. apply side_alone. rewrite Es. auto.
Qed.
Lemma errors_okub : forall em l i, Forall (tri_in n) l -> okub (errors_loop ROps A m em B l i).
Proof using.
  induction l as [|t l IH]; intros i H; cbn; [left; eexists; reflexivity|]. inversion H; subst. apply okub_bind; [apply elem_okub; auto|]. intros. apply okub_bind; auto. intros. left; eexists; reflexivity.
Qed.
Lemma errors_ub : forall em l i t, Forall (tri_in n) l -> In t l -> (forall i, is_ub (elem_error ROps A m em B i t)) -> is_ub (errors_loop ROps A m em B l i).
Proof using.
  induction l as [|t' l IH]; intros i t H I U; [destruct I|]. cbn. inversion H; subst. destruct I as [->|I].
  - destruct (U i) as [w ->]. eexists; reflexivity.
  - destruct (elem_okub em i t' H2) as [[e ->]|[w ->]]; [|eexists; reflexivity]. cbn [bind]. destruct (IH (S i) t H3 I U) as [w ->]. eexists; reflexivity.
Qed.
Lemma points_two : forall t, tri_in n t -> three_corners t -> Nat.ltb n 2 = false.
Proof using. intros t [H1 [H2 H3]] [D1 _]. apply Nat.ltb_ge. lia. Qed.
Lemma open_ub : forall t u v, Forall (tri_in n) ts -> Forall three_corners ts -> In t ts -> In u (corners t) -> In v (corners t) -> u <> v ->
  length (sharing ts u v) <> 2%nat -> is_ub (elem_errors ROps A m B).
Proof using.
  intros t u v HT HD It Iu Iv N L. unfold elem_errors, edge_triangles.
  rewrite Forall_forall in HT, HD. rewrite (points_two t) by auto. rewrite <- Forall_forall in HT, HD.
  assert (dec : forall ts, (forall u v, u <> v -> (length (sharing ts u v) <= 2)%nat) \/ (exists u v, u <> v /\ (2 < length (sharing ts u v))%nat)).
  { intros l. assert (X : forall N, (forall u v, (u < N)%nat -> (v < N)%nat -> u <> v -> (length (sharing l u v) <= 2)%nat) \/ (exists u v, u <> v /\ (2 < length (sharing l u v))%nat)).
    { intros M0. destruct (existsb (fun u => existsb (fun v => negb (Nat.eqb u v) && Nat.ltb 2 (length (sharing l u v))) (seq 0 M0)) (seq 0 M0)) eqn:Q.
      - right. apply existsb_exists in Q. destruct Q as [x [_ Q]]. apply existsb_exists in Q. destruct Q as [y [_ Q]]. apply andb_true_iff in Q. destruct Q as [Q1 Q2].
        exists x, y. split; [intros ->; rewrite Nat.eqb_refl in Q1; discriminate|]. apply Nat.ltb_lt; auto.
      - left. intros x y Hx Hy Nxy. destruct (Nat.le_gt_cases (length (sharing l x y)) 2) as [K|K]; auto. exfalso.
        apply Bool.not_true_iff_false in Q. apply Q. apply existsb_exists. exists x. split; [apply in_seq; lia|]. apply existsb_exists. exists y. split; [apply in_seq; lia|].
        apply andb_true_iff. split; [apply negb_true_iff, Nat.eqb_neq; auto|apply Nat.ltb_lt; auto]. }
    set (N0 := S (list_max (concat (map corners l)))). destruct (X N0) as [K|K]; auto. left. intros x y Nxy.
    destruct (sharing l x y) as [|i r] eqn:E; [cbn; lia|]. rewrite <- E. assert (I : In i (sharing l x y)) by (rewrite E; left; auto).
    apply sharing_in in I. destruct I as [Li [Ix Iy]]. assert (Z : forall z, In z (corners (nth i l (0, 0, 0)%nat)) -> (z < N0)%nat).
    { intros z Iz. unfold N0. assert (Iz' : In z (concat (map corners l))) by (apply in_concat; exists (corners (nth i l (0, 0, 0)%nat)); split; auto; apply in_map, nth_In; auto).
      pose proof (proj1 (list_max_le (concat (map corners l)) (list_max (concat (map corners l)))) (le_n _)) as F. rewrite Forall_forall in F. specialize (F z Iz'). lia. }
    apply K; auto. }
  destruct (dec ts) as [K|[x [y [Nxy K]]]].
  - destruct (edge_loop_ok ts HD K) as [em [-> E]]. cbn [bind]. apply (errors_ub em ts 0 t); auto. intros i. rewrite Forall_forall in HT, HD.
    apply (elem_alone em i t u v); auto. rewrite E by auto. specialize (K u v N).
    apply (In_nth _ _ (0, 0, 0)%nat) in It. destruct It as [k [Hk Ek]].
    assert (I : In k (sharing ts u v)) by (rewrite <- Ek in Iu, Iv; apply (proj2 (sharing_in ts u v k)); split; [exact Hk|split; [exact Iu|exact Iv]]).
    destruct (sharing ts u v) as [|a [|b [|c r]]]; cbn in *; try tauto; try lia.
  - destruct (edge_loop_over ts x y HD Nxy K) as [w ->]. eexists; reflexivity.
Qed.
Lemma closed_le : closed_surface ts -> forall u v, u <> v -> (length (sharing ts u v) <= 2)%nat.
Proof using.
  intros C u v N. destruct (sharing ts u v) as [|i r] eqn:E; [cbn; lia|]. rewrite <- E. assert (I : In i (sharing ts u v)) by (rewrite E; left; auto).
  apply sharing_in in I. destruct I as [Li [Iu Iv]]. rewrite (C (nth i ts (0, 0, 0)%nat) u v); auto. apply nth_In; auto.
Qed.
Lemma closed_behind : closed_surface ts -> forall i u v, (i < length ts)%nat -> In u (corners (nth i ts (0, 0, 0)%nat)) -> In v (corners (nth i ts (0, 0, 0)%nat)) -> u <> v ->
  exists j, behind ts i u v j /\ i <> j /\ (j < length ts)%nat.
Proof using.
  intros C i u v Hi Iu Iv N. assert (L : length (sharing ts u v) = 2%nat) by (apply (C (nth i ts (0, 0, 0)%nat)); auto; apply nth_In; auto).
  assert (I : In i (sharing ts u v)) by (apply sharing_in; auto). pose proof (sharing_nodup ts u v) as ND. unfold behind.
  assert (G : forall j, In j (sharing ts u v) -> (j < length ts)%nat) by (intros j J; apply sharing_in in J; tauto).
  destruct (sharing ts u v) as [|a [|b [|c r]]]; cbn in *; try lia. inversion ND as [|? ? Na _]; subst. cbn in Na.
  destruct I as [->|[->|[]]]; [exists b|exists a]; repeat split; auto; try (apply G; auto); intros ->; apply Na; auto.
Qed.
Lemma elem_closed : forall em i, closed_surface ts -> Forall (tri_in n) ts -> Forall three_corners ts -> length B = length ts -> (i < length ts)%nat ->
  (forall u v, u <> v -> edge_look em (edge u v) = sharing ts u v) ->
  exists e, elem_error ROps A m em B i (nth i ts (0, 0, 0)%nat) = Ok e /\ field_error m B i e.
Proof using.
  intros em i C HT HD LB Hi E. set (t := nth i ts (0, 0, 0)%nat). assert (It : In t ts) by (apply nth_In; auto).
  rewrite Forall_forall in HT, HD. pose proof (HT t It) as Ht. pose proof (HD t It) as [D1 [D2 D3]].
  assert (c0 : In (t0 t) (corners t)) by (left; auto). assert (c1 : In (t1 t) (corners t)) by (right; left; auto). assert (c2 : In (t2 t) (corners t)) by (right; right; left; auto).
  destruct (closed_behind C i (t0 t) (t1 t) Hi c0 c1 D1) as [j0 [B0 [N0 L0]]].
  destruct (closed_behind C i (t1 t) (t2 t) Hi c1 c2 D2) as [j1 [B1 [N1 L1]]].
  destruct (closed_behind C i (t2 t) (t0 t) Hi c2 c0 D3) as [j2 [B2 [N2 L2]]].
  rewrite <- LB in L0, L1, L2. unfold behind in *. rewrite <- E in B0, B1, B2 by auto.
  unfold elem_error. cbn [div ROps one]. cbn [ofZ ROps]. rewrite Rdivr_ok by lra. cbn [bind].
  rewrite (get_lt _ B i org) by (rewrite LB; auto). cbn [bind]. rewrite norm_any. cbn [bind]. rewrite tri_points_ok by auto. cbn [bind].
  rewrite darea_turn. change (turn (pos m (t0 t)) (pos m (t1 t)) (pos m (t2 t))) with (tri_turn m t). cbn [ltb ROps zero].
  change (nth i B org) with (field B i). destruct Ht as [H0 [H1 H2]].
  assert (SW : forall u v d, along_side m v u d = - along_side m u v d) by (intros; unfold along_side; ring).
  destruct (Rltb (tri_turn m t) 0) eqn:Q.
  - unfold sides. change (t0 (t1 t, t0 t, t2 t)) with (t1 t). change (t1 (t1 t, t0 t, t2 t)) with (t0 t). change (t2 (t1 t, t0 t, t2 t)) with (t2 t).
    cbn [forM_list]. rewrite (side_value em i (field B i) (t1 t) (t0 t) _ j0); auto; [|rewrite edge_comm; auto]. cbn [bind].
    rewrite (side_value em i (field B i) (t0 t) (t2 t) _ j2); auto; [|rewrite edge_comm; auto]. cbn [bind].
    rewrite (side_value em i (field B i) (t2 t) (t1 t) _ j1); auto; [|rewrite edge_comm; auto]. cbn [bind].
    eexists. split; [reflexivity|]. unfold field_error. fold t. exists j0, j1, j2. unfold behind. rewrite <- !E by auto. repeat (split; auto).
    apply Rltb_true in Q. destruct (Rlt_dec (tri_turn m t) 0); [|lra].
    rewrite (SW (t0 t) (t1 t)), (SW (t2 t) (t0 t)), (SW (t1 t) (t2 t)). cbn [mul ROps]. change (T ROps) with R. field.
  - unfold sides. cbn [forM_list]. rewrite (side_value em i (field B i) (t0 t) (t1 t) _ j0); auto. cbn [bind].
    rewrite (side_value em i (field B i) (t1 t) (t2 t) _ j1); auto. cbn [bind].
    rewrite (side_value em i (field B i) (t2 t) (t0 t) _ j2); auto. cbn [bind].
    eexists. split; [reflexivity|]. unfold field_error. fold t. exists j0, j1, j2. unfold behind. rewrite <- !E by auto. repeat (split; auto).
    apply Rltb_false in Q. destruct (Rlt_dec (tri_turn m t) 0); [lra|]. cbn [mul ROps]. change (T ROps) with R. field.
Qed.
Lemma closed_ok : closed_surface ts -> Forall (tri_in n) ts -> Forall three_corners ts -> ts <> [] -> length B = length ts ->
  exists errs, elem_errors ROps A m B = Ok errs /\ length errs = length ts /\ forall i, (i < length ts)%nat -> field_error m B i (nth i errs 0).
Proof using.
  intros C HT HD NE LB. unfold elem_errors, edge_triangles.
  assert (P2 : Nat.ltb n 2 = false). { destruct ts as [|t r] eqn:E; [congruence|]. inversion HT; inversion HD; subst. apply (points_two t); auto. }
  rewrite P2. destruct (edge_loop_ok ts HD (closed_le C)) as [em [-> E]]. cbn [bind].
  assert (X : forall l k, (forall i, (i < length l)%nat -> nth i l (0, 0, 0)%nat = nth (k + i) ts (0, 0, 0)%nat) -> (k + length l <= length ts)%nat ->
    exists errs, errors_loop ROps A m em B l k = Ok errs /\ length errs = length l /\ forall i, (i < length l)%nat -> field_error m B (k + i) (nth i errs 0)).
  { induction l as [|t l IH]; intros k H L.
    - exists []. cbn. repeat split; auto. intros i Hi. lia.
    - cbn [errors_loop]. cbn [length] in L. assert (Et : t = nth k ts (0, 0, 0)%nat) by (specialize (H 0%nat); cbn in H; rewrite Nat.add_0_r in H; apply H; lia).
      destruct (elem_closed em k C HT HD LB) as [e [E1 F1]]; auto; [lia|]. rewrite Et, E1. cbn [bind].
      destruct (IH (S k)) as [r [-> [Lr F2]]]; [|lia|].
      { intros i Hi. specialize (H (S i)). cbn [nth length] in H. rewrite H by lia. f_equal. lia. }
      cbn [bind]. exists (e :: r). split; auto. split; [cbn; auto|]. intros [|i] Hi; cbn [nth].
      + rewrite Nat.add_0_r. auto.
      + cbn [length] in Hi. replace (k + S i)%nat with (S k + i)%nat by lia. apply F2. lia. }
  destruct (X ts 0%nat) as [errs [E1 [L1 F1]]]; auto.
  exists errs. repeat split; auto.
Qed.
End OnR.

(** ** planar triangulations *)
Lemma nodup_concat : forall (X Y : Type) (f : X -> list Y) l, (forall x, In x l -> NoDup (f x)) ->
  (forall i j x x' y, nth_error l i = Some x -> nth_error l j = Some x' -> i <> j -> In y (f x) -> In y (f x') -> False) -> NoDup (concat (map f l)).
Proof.
  induction l as [|x l IH]; intros H K; cbn; [constructor|].
  assert (ND : NoDup (concat (map f l))).
  { apply IH; [intros; apply H; right; auto|]. intros i j a b y E1 E2 N. apply (K (S i) (S j) a b y); auto. }
  assert (G : forall l1 l2 : list Y, NoDup l1 -> NoDup l2 -> (forall y, In y l1 -> In y l2 -> False) -> NoDup (l1 ++ l2)).
  { induction l1 as [|z l1 IH1]; intros l2 N1 N2 D; cbn; auto. inversion N1; subst. constructor.
    - rewrite in_app_iff. intros [I|I]; auto. apply (D z); auto; left; auto.
    - apply IH1; auto. intros y Y1 Y2. apply (D y); auto; right; auto. }
  apply G; auto; [apply H; left; auto|]. intros y Y1 Y2. apply in_concat in Y2. destruct Y2 as [s [I1 I2]]. apply in_map_iff in I1. destruct I1 as [x' [<- I1]].
  apply In_nth_error in I1. destruct I1 as [j E]. apply (K 0%nat (S j) x x' y); auto.
Qed.
Lemma concat_once : forall (X Y : Type) (f : X -> list Y) l i j x x' y, NoDup (concat (map f l)) -> nth_error l i = Some x -> nth_error l j = Some x' -> i <> j ->
  In y (f x) -> In y (f x') -> False.
Proof.
  induction l as [|z l IH]; intros i j x x' y ND E1 E2 N I1 I2; [destruct i; discriminate|]. cbn in ND.
  assert (D : forall y, In y (f z) -> In y (concat (map f l)) -> False).
  { clear - ND. induction (f z) as [|a r IHr]; intros y I J; [destruct I|]. cbn in ND. inversion ND; subst. destruct I as [->|I]; [|eapply IHr; eauto].
    apply H1. apply in_or_app; auto. }
  assert (N2 : NoDup (concat (map f l))). { clear - ND. induction (f z); cbn in ND; auto. inversion ND; auto. }
  assert (C : forall k x, nth_error l k = Some x -> In y (f x) -> In y (concat (map f l))).
  { intros k w E I. apply in_concat. exists (f w). split; auto. apply in_map. eapply nth_error_In; eauto. }
  destruct i as [|i], j as [|j]; cbn in E1, E2; try congruence.
  - injection E1 as ->. apply (D y); eauto.
  - injection E2 as ->. apply (D y); eauto.
  - apply (IH i j x x' y); auto.
Qed.

(** triangles on the same side of a common edge overlap *)
Lemma same_side_overlap : forall a b c d : pt, 0 < turn a b c -> 0 < turn a b d -> exists p, in_open_triangle p a b c /\ in_open_triangle p a b d.
Proof.
  intros a b c d Hc Hd. set (D := turn a b d) in *. set (g := turn a b c / D). set (al := turn b d c / D). set (be := turn d a c / D).
  assert (G : 0 < g) by (unfold g; apply Rdiv_lt_0_compat; auto).
  assert (S1 : al + be + g = 1) by (unfold al, be, g, D in *; unfold turn in *; field; lra).
  assert (X : px c = al * px a + be * px b + g * px d) by (unfold al, be, g, D in *; unfold turn in *; field; lra).
  assert (Y : py c = al * py a + be * py b + g * py d) by (unfold al, be, g, D in *; unfold turn in *; field; lra).
  set (M := 1 + Rabs al + Rabs be). pose proof (Rabs_pos al). pose proof (Rabs_pos be).
  set (s := / (4 * M)). assert (M1 : 1 <= M) by (unfold M; lra). assert (Hs : 0 < s) by (unfold s; apply Rinv_0_lt_compat; lra).
  assert (Sm : s * M = / 4) by (unfold s; field; lra).
  assert (S4 : s <= / 4) by nra.
  assert (Ba : - / 4 <= s * al). { pose proof (Rle_abs (- al)). rewrite Rabs_Ropp in H1. assert (s * Rabs al <= s * M) by (apply Rmult_le_compat_l; unfold M; lra). nra. }
  assert (Bb : - / 4 <= s * be). { pose proof (Rle_abs (- be)). rewrite Rabs_Ropp in H1. assert (s * Rabs be <= s * M) by (apply Rmult_le_compat_l; unfold M; lra). nra. }
  set (u := (1 - s) / 2). exists (P (u * px a + u * px b + s * px c) (u * py a + u * py b + s * py c)). split.
  - exists u, u, s. rewrite px_P, py_P. unfold u. repeat split; try lra.
  - exists (u + s * al), (u + s * be), (s * g). rewrite px_P, py_P. split; [unfold u; lra|]. split; [unfold u; lra|]. split; [apply Rmult_lt_0_compat; auto|].
    split; [|split].
    + unfold u. replace ((1 - s) / 2 + s * al + ((1 - s) / 2 + s * be) + s * g) with (1 - s + s * (al + be + g)) by field. rewrite S1. ring.
    + rewrite X. ring.
    + rewrite Y. ring.
Qed.
Lemma open_rot : forall p a b c, in_open_triangle p a b c -> in_open_triangle p b c a.
Proof. intros p a b c [u [v [w [H1 [H2 [H3 [H4 [H5 H6]]]]]]]]. exists v, w, u. repeat split; auto; lra. Qed.
Lemma open_swap : forall p a b c, in_open_triangle p a b c -> in_open_triangle p b a c.
Proof. intros p a b c [u [v [w [H1 [H2 [H3 [H4 [H5 H6]]]]]]]]. exists v, u, w. repeat split; auto; lra. Qed.

Section Planar.
Variable A : Type.
Variable m : mesh ROps A.
Notation ts := (m_tris m).
(** a counterclockwise side has the third corner on its left *)
Lemma ccw_side_third : forall t u v, tri_turn m t <> 0 -> In (u, v) (ccw_sides m t) -> exists w, 0 < turn (pos m u) (pos m v) (pos m w) /\
  forall p, in_open_triangle p (pos m u) (pos m v) (pos m w) -> in_open_triangle p (pos m (t0 t)) (pos m (t1 t)) (pos m (t2 t)).
Proof using.
  intros t u v H I. unfold ccw_sides in I.
  assert (R1 : forall a b c, turn b c a = turn a b c) by (intros; unfold turn; ring).
  assert (R2 : forall a b c, turn b a c = - turn a b c) by (intros; unfold turn; ring).
  set (a := pos m (t0 t)) in *. set (b := pos m (t1 t)) in *. set (c := pos m (t2 t)) in *. change (tri_turn m t) with (turn a b c) in *.
  destruct (Rlt_dec (turn a b c) 0) as [Q|Q]; cbn in I; destruct I as [E|[E|[E|[]]]]; injection E as <- <-.
  - exists (t2 t). fold a b c. split; [rewrite R2; lra|]. intros p K. apply open_swap; auto.
  - exists (t0 t). fold a b c. split; [rewrite R2, R1; lra|]. intros p K. apply open_rot, open_rot, open_swap; auto.
  - exists (t1 t). fold a b c. split; [rewrite R2, R1, R1; lra|]. intros p K. apply open_rot, open_swap; auto.
  - exists (t2 t). fold a b c. split; [lra|]. auto.
  - exists (t0 t). fold a b c. split; [rewrite R1; lra|]. intros p K. apply open_rot, open_rot; auto.
  - exists (t1 t). fold a b c. split; [rewrite R1, R1; lra|]. intros p K. apply open_rot; auto.
Qed.
Lemma turn_corners : forall t, tri_turn m t <> 0 -> three_corners t.
Proof using.
  intros t H. unfold tri_turn in H. repeat split; intros E; apply H; rewrite E; unfold turn; ring.
Qed.
Lemma ccw_nodup : forall t, three_corners t -> NoDup (ccw_sides m t).
Proof using.
  intros t [D1 [D2 D3]]. unfold ccw_sides. destruct (Rlt_dec _ _); cbn; (constructor; [|constructor; [|constructor; [|constructor]]]); cbn; intuition congruence.
Qed.
Lemma conforming_no_fold : conforming m -> no_fold m ts.
Proof using.
  intros [W [Hp [Ov _]]]. unfold proper in Hp. rewrite Forall_forall in Hp. apply nodup_concat.
  - intros t It. apply ccw_nodup, turn_corners, Hp; auto.
  - intros i j t t' [u v] E1 E2 N I1 I2.
    destruct (ccw_side_third t u v) as [w [P1 Q1]]; auto; [apply Hp; eapply nth_error_In; eauto|].
    destruct (ccw_side_third t' u v) as [w' [P2 Q2]]; auto; [apply Hp; eapply nth_error_In; eauto|].
    destruct (same_side_overlap _ _ _ _ P1 P2) as [p [O1 O2]]. apply (Ov i j t t' p); auto.
Qed.
Definition cross (u v : nat) : R := px (pos m u) * py (pos m v) - py (pos m u) * px (pos m v).
Lemma cross_tri : forall t, suml (ccw_sides m t) (fun e => cross (fst e) (snd e)) = Rabs (tri_turn m t).
Proof using.
  intros t. unfold ccw_sides, tri_turn, turn. destruct (Rlt_dec _ _) as [Q|Q]; cbn [map suml fst snd]; unfold suml; cbn; unfold cross.
  - rewrite Rabs_left by lra. ring.
  - rewrite Rabs_right by lra. ring.
Qed.
Lemma suml_concat : forall (X Y : Type) (f : X -> list Y) (h : Y -> R) l, suml (concat (map f l)) h = suml l (fun x => suml (f x) h).
Proof using. clear. induction l as [|x l IH]; auto. cbn [map concat]. rewrite suml_app, IH. reflexivity. Qed.
(** the sum of an antisymmetric quantity over a set of directed edges, when it vanishes on those without a reverse *)
Lemma swap_sum : forall (D : list (nat * nat)) (h : nat -> nat -> R), NoDup D -> (forall u v, h v u = - h u v) ->
  (forall u v, In (u, v) D -> ~ In (v, u) D -> h u v = 0) -> suml D (fun e => h (fst e) (snd e)) = 0.
Proof using.
  clear. intros D h ND AS Z. assert (dec : forall x y : nat * nat, {x = y} + {x <> y}) by (decide equality; apply Nat.eq_dec).
  set (sw := fun e : nat * nat => (snd e, fst e)). set (two := fun e => if in_dec dec (sw e) D then true else false).
  assert (E1 : suml D (fun e => h (fst e) (snd e)) = suml (filter two D) (fun e => h (fst e) (snd e))).
  { assert (X : forall l, incl l D -> suml l (fun e => h (fst e) (snd e)) = suml (filter two l) (fun e => h (fst e) (snd e))).
    { induction l as [|e l IH]; intros I; auto. cbn [filter]. assert (I' : incl l D) by (intros z Hz; apply I; right; auto). unfold two at 1. destruct (in_dec dec (sw e) D) as [Q|Q].
      - unfold suml in *. cbn [fold_right map]. cbn. rewrite <- IH by auto. reflexivity.
      - rewrite <- IH by auto. destruct e as [u v]. unfold suml. cbn. rewrite (Z u v); [|apply I; left; auto|auto]. apply Rplus_0_l. }
    apply X. apply incl_refl. }
  assert (Q : Permutation (filter two D) (map sw (filter two D))).
  { apply NoDup_Permutation; [apply NoDup_filter; auto| |].
    - apply FinFun.Injective_map_NoDup; [|apply NoDup_filter; auto]. intros [a b] [c d] E. unfold sw in E. cbn in E. injection E as -> ->. auto.
    - assert (SS : forall e, sw (sw e) = e) by (intros [a b]; reflexivity).
      intros e. rewrite filter_In, in_map_iff. unfold two. split.
      + intros [I J]. destruct (in_dec dec (sw e) D) as [K|K]; [|discriminate]. exists (sw e). split; auto. rewrite filter_In. split; auto. rewrite SS. destruct (in_dec dec e D); auto.
      + intros [e' [<- I]]. apply filter_In in I. destruct I as [I J]. destruct (in_dec dec (sw e') D) as [K|K]; [|discriminate]. split; auto. rewrite SS. destruct (in_dec dec e' D); auto. }
  rewrite E1. pose proof (suml_perm _ _ _ (fun e => h (fst e) (snd e)) Q) as P1. rewrite suml_map in P1. unfold sw in P1. cbn [fst snd] in P1.
  rewrite (suml_ext _ (filter two D) (fun e => h (snd e) (fst e)) (fun e => (-1) * h (fst e) (snd e))) in P1.
  - rewrite suml_scal in P1. lra.
  - intros e _. rewrite AS. ring.
Qed.
Lemma ccw_of_corners : forall t u v, In u (corners t) -> In v (corners t) -> u <> v -> In (u, v) (ccw_sides m t) \/ In (v, u) (ccw_sides m t).
Proof using.
  intros t u v Iu Iv N. unfold ccw_sides, corners in *. cbn in Iu, Iv.
  destruct (Rlt_dec _ _); cbn; destruct Iu as [<-|[<-|[<-|[]]]], Iv as [<-|[<-|[<-|[]]]]; try congruence; auto 8.
Qed.
Lemma corners_of_ccw : forall t u v, In (u, v) (ccw_sides m t) -> In u (corners t) /\ In v (corners t).
Proof using.
  intros t u v I. unfold ccw_sides, corners in *. destruct (Rlt_dec _ _); cbn in *; destruct I as [E|[E|[E|[]]]]; injection E as <- <-; auto.
Qed.
Lemma planar_open : conforming m -> ts <> [] -> exists t u v, In t ts /\ In u (corners t) /\ In v (corners t) /\ u <> v /\ length (sharing ts u v) <> 2%nat.
Proof using.
  intros Cf NE. pose proof (conforming_no_fold Cf) as NF. destruct Cf as [W [Hp _]]. unfold proper in Hp. rewrite Forall_forall in Hp.
  set (D := concat (map (ccw_sides m) ts)) in *.
  assert (K : (forall e, In e D -> In (snd e, fst e) D) \/ exists e, In e D /\ ~ In (snd e, fst e) D).
  { assert (dec : forall x y : nat * nat, {x = y} + {x <> y}) by (decide equality; apply Nat.eq_dec). clear - dec.
    assert (X : forall l, (forall e, In e l -> In (snd e, fst e) D) \/ exists e, In e l /\ ~ In (snd e, fst e) D).
    { induction l as [|e l IH]; [left; intros e []|]. destruct (in_dec dec (snd e, fst e) D) as [Q|Q]; [|right; exists e; split; [left|]; auto].
      destruct IH as [IH|[e' [I J]]]; [left; intros e' [<-|I]; auto|right; exists e'; split; [right|]; auto]. }
    apply X. }
  destruct K as [K|[[u v] [I J]]].
  - exfalso. assert (S0 : suml D (fun e => cross (fst e) (snd e)) = 0).
    { apply swap_sum; auto; [intros; unfold cross; ring|]. intros u v I J. exfalso. apply J. apply (K (u, v)); auto. }
    unfold D in S0. rewrite suml_concat in S0. rewrite (suml_ext _ ts _ (fun t => Rabs (tri_turn m t))) in S0 by (intros; apply cross_tri).
    destruct ts as [|t r]; [congruence|]. unfold suml in S0. cbn in S0.
    assert (0 < Rabs (tri_turn m t)) by (apply Rabs_pos_lt, Hp; left; auto).
    assert (0 <= suml r (fun t => Rabs (tri_turn m t))) by (apply suml_nonneg; intros; apply Rabs_pos). unfold suml in H0. lra.
  - unfold D in I. apply in_concat in I. destruct I as [s [I1 I2]]. apply in_map_iff in I1. destruct I1 as [t [<- It]].
    destruct (corners_of_ccw t u v I2) as [Iu Iv]. assert (N : u <> v).
    { destruct (ccw_side_third t u v (Hp t It) I2) as [w [Q _]]. intros ->. unfold turn in Q. lra. }
    exists t, u, v. repeat (split; auto). intros L. pose proof (In_nth_error _ _ It) as [i Ei].
    assert (Hi : (i < length ts)%nat) by (apply nth_error_Some; congruence).
    assert (Ii : In i (sharing ts u v)) by (pose proof (nth_error_nth _ _ (0, 0, 0)%nat Ei) as Q; rewrite <- Q in Iu, Iv; apply (proj2 (sharing_in ts u v i)); split; [exact Hi|split; [exact Iu|exact Iv]]).
    assert (exists j, In j (sharing ts u v) /\ j <> i) as [j [Jj Nj]].
    { pose proof (sharing_nodup ts u v) as ND. destruct (sharing ts u v) as [|a [|b [|? ?]]]; try discriminate. inversion ND as [|? ? Na _]; subst. cbn in *.
      destruct Ii as [->|[->|[]]]; [exists b|exists a]; split; auto; intros ->; apply Na; auto. }
    apply sharing_in in Jj. destruct Jj as [Hj [Ju Jv]]. set (t' := nth j ts (0, 0, 0)%nat) in *. assert (Ej : nth_error ts j = Some t') by (apply nth_error_nth'; auto).
    destruct (ccw_of_corners t' u v Ju Jv N) as [S1|S1].
    + apply (concat_once _ _ (ccw_sides m) ts i j t t' (u, v)); auto.
    + apply J. cbn. unfold D. apply in_concat. exists (ccw_sides m t'). split; auto. apply in_map. eapply nth_error_In; eauto.
Qed.
Lemma planar_ub : conforming m -> ts <> [] -> forall B, is_ub (elem_errors ROps A m B).
Proof using.
  intros Cf NE B. destruct (planar_open Cf NE) as [t [u [v [It [Iu [Iv [N L]]]]]]]. destruct Cf as [W [Hp _]].
  apply (open_ub A m B t u v); auto. unfold proper in Hp. rewrite Forall_forall in *. intros x Hx. apply turn_corners, Hp; auto.
Qed.
End Planar.

(** ** surrounding outlines *)
Local Close Scope R_scope.
Lemma enclosing_length : forall o g l r, enclosing o g l = Ok r -> (forall h, In h r -> In h l /\ encloses o h g) /\
  forall i j h k, i <> j -> nth_error l i = Some h -> nth_error l j = Some k -> encloses o h g -> encloses o k g -> 2 <= length r.
Proof.
  induction l as [|x l IH]; intros r E; cbn in E.
  - injection E as <-. split; [intros h []|]. intros [|i] j h k _ E; discriminate.
  - destruct (if poly_contains_poly o x g then poly_neqb o x g else Ok false) as [b| | |] eqn:Q; try discriminate. cbn in E.
    destruct (enclosing o g l) as [r'| | |] eqn:Er; try discriminate. cbn in E. destruct (IH r' eq_refl) as [I1 I2]. injection E as <-.
    assert (One : forall i h, nth_error l i = Some h -> encloses o h g -> 1 <= length r').
    { clear - Er. revert r' Er. induction l as [|y l IH]; intros r' Er [|i] h Ei En; try discriminate; cbn in Er.
      - injection Ei as ->. destruct En as [C N]. rewrite C, N in Er. cbn in Er. destruct (enclosing o g l); try discriminate. injection Er as <-. cbn. lia.
      - destruct (if poly_contains_poly o y g then _ else _); try discriminate. cbn in Er. destruct (enclosing o g l) as [r1| | |] eqn:Q; try discriminate.
        cbn in Er. injection Er as <-. pose proof (IH r1 eq_refl i h Ei En). destruct a; cbn; lia. }
    split.
    + intros h I. destruct b.
      * destruct I as [<-|I]; [|destruct (I1 h I); split; [right|]; auto]. split; [left; auto|]. unfold encloses. destruct (poly_contains_poly o x g); [auto|discriminate].
      * destruct (I1 h I); split; [right|]; auto.
    + assert (Bt : encloses o x g -> b = true). { intros [C N]. rewrite C, N in Q. injection Q as <-. auto. }
      intros [|i] [|j] h k N E1 E2 F1 F2; cbn in E1, E2; try congruence.
      * injection E1 as ->. rewrite Bt by auto. cbn. pose proof (One j k E2 F2). lia.
      * injection E2 as ->. rewrite Bt by auto. cbn. pose proof (One i h E1 F1). lia.
      * assert (i <> j) by lia. pose proof (I2 i j h k H E1 E2 F1 F2). destruct b; cbn; lia.
Qed.
Lemma removal_one : forall o n l r, removal o n l = Ok r -> r = l /\ length l <= 1.
Proof.
  induction n as [|n IH]; intros l r H; cbn in H; destruct (Nat.leb_spec (length l) 1) as [L|L]; try (injection H as <-; auto); try discriminate.
  destruct (removal_pass o l l); try discriminate. cbn in H. destruct (IH _ _ H). lia.
Qed.
Lemma regions_one : forall o A pdef (m : mesh o A) p r, find_regions o A pdef m p = Ok r ->
  exists g h, getInnermostPolygon o A m p = Ok g /\ In h (polygons (m_drawing m)) /\ encloses o h g /\
    forall i j k k', nth_error (polygons (m_drawing m)) i = Some k -> nth_error (polygons (m_drawing m)) j = Some k' -> encloses o k g -> encloses o k' g -> i = j.
Proof.
  intros o A pdef m p r H. unfold find_regions in H. destruct (getInnermostPolygon o A m p) as [g| | |]; try discriminate. cbn [bind] in H.
  destruct (enclosing o g (polygons (m_drawing m))) as [l| | |] eqn:E; try discriminate. cbn [bind] in H. destruct (removal o 101 l) as [l'| | |] eqn:Q; try discriminate. cbn [bind] in H.
  apply removal_one in Q. destruct Q as [-> L]. destruct (enclosing_length o g _ _ E) as [I1 I2]. destruct l as [|h l]; [discriminate|].
  exists g, h. split; auto. destruct (I1 h (or_introl eq_refl)). split; auto. split; auto.
  intros i j k k' E1 E2 F1 F2. destruct (Nat.eq_dec i j) as [|N]; auto. pose proof (I2 i j k k' N E1 E2 F1 F2). lia.
Qed.
