(** Polygon containment (C22). *)
From Coq Require Import String.
From Coq Require Import List Arith ZArith NArith Bool Lia Permutation.
From Coq Require Import Reals Lra Psatz.
From Verif Require Import Base GeometryModel GeometrySpec Geometry_proofs Circle_proofs.
Import ListNotations.
Local Open Scope R_scope.

Lemma eqb_R : forall a b : R, eqb ROps a b = true <-> a = b.
Proof. intros; simpl; apply Reqb_true. Qed.
Lemma ltb_R : forall a b : R, ltb ROps a b = true <-> a < b.
Proof. intros; simpl; apply Rltb_true. Qed.

Lemma on_seg_turn : forall p a b, on_segment p a b -> turn p a b = 0.
Proof. intros p a b [t [Ht E]]. subst p. unfold turn. rewrite along_x, along_y. ring. Qed.

(** a point at the height of a non-horizontal edge *)
Lemma height_param : forall a b : pt, forall y, py a <> py b -> y = py a + (y - py a) / (py b - py a) * (py b - py a).
Proof. intros a b y H. field. lra. Qed.

Lemma edge_step_R : forall p a b : pt,
  (on_segment p a b /\ edge_step ROps p a b = None) \/
  (~ on_segment p a b /\ exists t, edge_step ROps p a b = Some t /\ (t = true <-> meets_ray p a b)).
Proof.
  intros p a b. unfold edge_step.
  change (vx p) with (px p). change (vy p) with (py p). change (vx a) with (px a). change (vy a) with (py a).
  change (vx b) with (px b). change (vy b) with (py b).
  match goal with |- context [if ?c then _ else _] => destruct c eqn:E1 end.
  { left. split; auto. rewrite orb_true_iff, !andb_true_iff, !eqb_R in E1. destruct E1 as [[H1 H2]|[H1 H2]].
    - exists 0. split; [lra|]. apply pt_ext; rewrite ?along_x, ?along_y; lra.
    - exists 1. split; [lra|]. apply pt_ext; rewrite ?along_x, ?along_y; lra. }
  apply not_true_iff_false in E1. rewrite orb_true_iff, !andb_true_iff, !eqb_R in E1.
  match goal with |- context [if ?c then _ else _] => destruct c eqn:E2 end.
  { left. split; auto. rewrite !andb_true_iff, orb_true_iff, !andb_true_iff, !eqb_R, !geb_R, !leb_R in E2.
    destruct E2 as [[H1 H2] H3].
    assert (Hn : px b - px a <> 0).
    { intros Z. apply E1. left. split; [|lra]. destruct H3 as [[? ?]|[? ?]]; lra. }
    exists ((px p - px a) / (px b - px a)). split.
    - destruct H3 as [[U V]|[U V]].
      + assert (0 < px b - px a) by lra. split.
        * apply Rmult_le_pos; [lra|left; apply Rinv_0_lt_compat; auto].
        * apply Rmult_le_reg_r with (px b - px a); auto. unfold Rdiv. rewrite Rmult_assoc, Rinv_l, Rmult_1_r, Rmult_1_l; lra.
      + assert (0 < px a - px b) by lra. replace ((px p - px a) / (px b - px a)) with ((px a - px p) / (px a - px b)) by (field; lra). split.
        * apply Rmult_le_pos; [lra|left; apply Rinv_0_lt_compat; auto].
        * apply Rmult_le_reg_r with (px a - px b); auto. unfold Rdiv. rewrite Rmult_assoc, Rinv_l, Rmult_1_r, Rmult_1_l; lra.
    - apply pt_ext; rewrite ?along_x, ?along_y; [field; auto|rewrite H1; replace (py b - py b) with 0 by ring; rewrite Rmult_0_r; lra]. }
  apply not_true_iff_false in E2. rewrite !andb_true_iff, orb_true_iff, !andb_true_iff, !eqb_R, !geb_R, !leb_R in E2.
  (* a horizontal edge that is not hit does not contain p *)
  assert (Hh : py a = py b -> ~ on_segment p a b).
  { intros Eh [t [Ht Ep]]. apply E2. rewrite Ep, along_x, along_y. split; [split; [auto|rewrite Eh; ring]|].
    destruct (Rle_dec (px a) (px b)).
    - left. pose proof (Rmult_le_pos t (px b - px a)). pose proof (Rmult_le_pos (1 - t) (px b - px a)). lra.
    - right. pose proof (Rmult_le_pos t (px a - px b)). pose proof (Rmult_le_pos (1 - t) (px a - px b)). lra. }
  assert (Hr : meets_ray p a b -> (py a < py p <= py b) \/ (py b < py p <= py a)).
  { intros [t [Hx [Hy [[H1 H2]|[H1 H2]]]]]; [left|right].
    - pose proof (Rmult_lt_0_compat t (py b - py a)). pose proof (Rmult_le_pos (1 - t) (py b - py a)). lra.
    - pose proof (Rmult_le_pos t (py a - py b)). pose proof (Rmult_lt_0_compat (1 - t) (py a - py b)). lra. }
  match goal with |- context [if ?c then _ else _] => destruct c eqn:E3 end.
  2:{ apply not_true_iff_false in E3. rewrite orb_true_iff, !andb_true_iff, !geb_R, !leb_R in E3. right. split.
      - intros [t [Ht Ep]]. apply E3. rewrite Ep, along_y. destruct (Rle_dec (py a) (py b)).
        + left. pose proof (Rmult_le_pos t (py b - py a)). pose proof (Rmult_le_pos (1 - t) (py b - py a)). lra.
        + right. pose proof (Rmult_le_pos t (py a - py b)). pose proof (Rmult_le_pos (1 - t) (py a - py b)). lra.
      - exists false. split; auto. split; [discriminate|]. intros M. exfalso. apply E3. destruct (Hr M); lra. }
  rewrite orb_true_iff, !andb_true_iff, !geb_R, !leb_R in E3.
  match goal with |- context [if ?c then _ else _] => destruct c eqn:E4 end.
  { rewrite orb_true_iff, !andb_true_iff, !eqb_R, !geb_R in E4. right.
    assert (Hno : ~ on_segment p a b).
    { intros Hs. destruct (Req_dec (py a) (py b)) as [Eh|Eh]; [apply (Hh Eh Hs)|].
      destruct Hs as [t [Ht Ep]]. rewrite Ep, along_x, along_y in E1. rewrite Ep, along_y in E4.
      destruct E4 as [[H1 H2]|[H1 H2]].
      - assert (t = 0). { assert (t * (py b - py a) = 0) by lra. apply Rmult_integral in H. lra. } subst t. apply E1. left; split; ring.
      - assert (t = 1). { assert ((1 - t) * (py b - py a) = 0) by lra. apply Rmult_integral in H. lra. } subst t. apply E1. right; split; ring. }
    split; auto. exists false. split; auto. split; [discriminate|]. intros M. exfalso. destruct (Hr M); destruct E4 as [[? ?]|[? ?]]; lra. }
  apply not_true_iff_false in E4. rewrite orb_true_iff, !andb_true_iff, !eqb_R, !geb_R in E4.
  assert (Hy : (py a < py p <= py b) \/ (py b < py p <= py a)).
  { destruct E3 as [[U V]|[U V]].
    - destruct (Req_dec (py p) (py a)); [exfalso; apply E4; left; lra|]. left; lra.
    - destruct (Req_dec (py p) (py b)); [exfalso; apply E4; right; lra|]. right; lra. }
  assert (Hne : py a <> py b) by lra.
  set (t := (py p - py a) / (py b - py a)).
  assert (Et : t * (py b - py a) = py p - py a) by (unfold t; field; lra).
  assert (Htr : (py a < py b -> 0 < t <= 1) /\ (py b < py a -> 0 <= t < 1)).
  { split; intros G.
    - assert (0 < py b - py a) by lra. split; [apply Rmult_lt_reg_r with (py b - py a); lra|apply Rmult_le_reg_r with (py b - py a); lra].
    - assert (0 < py a - py b) by lra. split; [apply Rmult_le_reg_r with (py a - py b); lra|apply Rmult_lt_reg_r with (py a - py b); lra]. }
  assert (Ht01 : 0 <= t <= 1).
  { destruct (Rlt_dec (py a) (py b)) as [G|G]; [pose proof (proj1 Htr G)|assert (G' : py b < py a) by lra; pose proof (proj2 Htr G')]; lra. }
  set (c := add ROps _ _) || set (c := sub ROps _ _).
  assert (Ec : c = (px a + t * (px b - px a) - px p) * (py b - py a)).
  { change ((px a - px p) * (py b - py p) - (px b - px p) * (py a - py p) = (px a + t * (px b - px a) - px p) * (py b - py a)).
    replace ((px a + t * (px b - px a) - px p) * (py b - py a)) with ((px a - px p) * (py b - py a) + (px b - px a) * (t * (py b - py a))) by ring.
    rewrite Et. ring. }
  clearbody c.
  match goal with |- context [if ?c then _ else _] => destruct c eqn:E5 end.
  { apply eqb_R in E5. left. split; auto. exists t. split; auto. rewrite E5 in Ec. symmetry in Ec. apply Rmult_integral in Ec.
    apply pt_ext; rewrite ?along_x, ?along_y; [|lra]. destruct Ec as [G|G]; [|change (zero ROps) with 0 in *; lra].
    change (zero ROps) with 0 in *. lra. }
  apply not_true_iff_false in E5. rewrite eqb_R in E5. change (zero ROps) with 0 in *. right. split.
  { intros [s [Hs Ep]]. apply E5. rewrite Ec. apply (f_equal py) in Ep as Epy. apply (f_equal px) in Ep as Epx. rewrite along_y in Epy. rewrite along_x in Epx.
    assert ((t - s) * (py b - py a) = 0) by lra. apply Rmult_integral in H. assert (t = s) by lra. subst s. rewrite Epx. ring. }
  eexists; split; [reflexivity|]. rewrite eqb_true_iff.
  assert (Ea : forall x y : bool, (x = y) <-> (x = true <-> y = true)) by (intros [] []; intuition discriminate).
  rewrite Ea, ltb_R, gtb_R, Ec. split.
  - intros Hsgn. exists t. split; [|split; [lra|]].
    + destruct (Rlt_dec (py a) (py b)) as [G|G].
      * apply Hsgn in G as G2. assert (0 < px a + t * (px b - px a) - px p); [|lra].
        apply Rmult_lt_reg_r with (py b - py a); [lra|]. rewrite Rmult_0_l. auto.
      * assert (~ 0 < (px a + t * (px b - px a) - px p) * (py b - py a)) by tauto.
        assert (0 < px a + t * (px b - px a) - px p); [|lra].
        assert (px a + t * (px b - px a) - px p <> 0) by (intros Z; apply E5; rewrite Ec, Z; ring).
        destruct (Rlt_dec 0 (px a + t * (px b - px a) - px p)); auto. exfalso. apply H.
        replace (_ * _) with ((- (px a + t * (px b - px a) - px p)) * (py a - py b)) by ring. apply Rmult_lt_0_compat; lra.
    + destruct (Rlt_dec (py a) (py b)) as [G|G]; [left; split; auto; apply Htr; auto|right]. assert (G' : py b < py a) by lra. split; auto. apply Htr; auto.
  - intros [s [Hx [Hy2 _]]]. assert (Es : (t - s) * (py b - py a) = 0) by lra. apply Rmult_integral in Es.
    assert (t = s) by lra. subst s. split; intros G.
    + apply Rmult_lt_0_compat; lra.
    + destruct (Rlt_dec (py a) (py b)); auto. exfalso.
      assert (0 < (px a + t * (px b - px a) - px p) * (py a - py b)) by (apply Rmult_lt_0_compat; lra). lra.
Qed.

Definition hit (p : pt) (e : pt * pt) : bool := match edge_step ROps p (fst e) (snd e) with None => true | Some _ => false end.
Definition tog (p : pt) (e : pt * pt) : bool := match edge_step ROps p (fst e) (snd e) with Some t => t | None => false end.
Fixpoint par (p : pt) (l : list (pt * pt)) : bool := match l with [] => false | e :: l' => xorb (tog p e) (par p l') end.
Fixpoint pairs (A : pt) (l : list pt) : list (pt * pt) := match l with [] => [] | B :: l' => (A, B) :: pairs B l' end.

Lemma loop_pairs : forall p l A ins,
  contains_loop ROps p A l ins = existsb (hit p) (pairs A l) || xorb ins (par p (pairs A l)).
Proof.
  intros p; induction l as [|B l IH]; intros A ins; simpl; [destruct ins; auto|].
  unfold hit at 1, tog at 1; simpl. destruct (edge_step ROps p A B) as [t|]; simpl; auto.
  rewrite IH. destruct t, ins, (par p (pairs B l)), (existsb (hit p) (pairs B l)); auto.
Qed.

Lemma pairs_app : forall l1 A B l2, pairs A (l1 ++ B :: l2) = pairs A (l1 ++ [B]) ++ pairs B l2.
Proof. induction l1 as [|C l1 IH]; intros; simpl; auto. rewrite IH. auto. Qed.

Lemma combine_pairs : forall l A B, combine (A :: l) (l ++ [B]) = pairs A (l ++ [B]).
Proof. induction l as [|C l IH]; intros A B; simpl; auto. f_equal. apply IH. Qed.

Lemma last_cons_app : forall (l : list pt) A d, last (l ++ [A]) d = A.
Proof. intros. rewrite last_last. auto. Qed.

(** the walk of the code is the boundary walk of the specification, started one edge earlier *)
Lemma edges_perm : forall A0 l, Permutation (pairs (last (A0 :: l) A0) (A0 :: l)) (edges (A0 :: l)).
Proof.
  intros A0 l. unfold edges. rewrite combine_pairs.
  destruct l as [|x l0] using rev_ind.
  - simpl. apply Permutation_refl.
  - clear IHl0. change (A0 :: l0 ++ [x]) with ((A0 :: l0) ++ [x]). rewrite last_last. simpl.
    rewrite <- app_assoc. simpl. rewrite (pairs_app l0 A0 x [A0]). simpl.
    apply Permutation_cons_append.
Qed.

Lemma par_app : forall p l1 l2, par p (l1 ++ l2) = xorb (par p l1) (par p l2).
Proof. induction l1 as [|e l1 IH]; intros; simpl; [destruct (par p l2); auto|]. rewrite IH, xorb_assoc. auto. Qed.
Lemma par_perm : forall p l1 l2, Permutation l1 l2 -> par p l1 = par p l2.
Proof.
  induction 1; simpl; auto; try congruence.
  rewrite <- !xorb_assoc, (xorb_comm (tog p y)). auto.
Qed.
Lemma existsb_perm : forall A (f : A -> bool) l1 l2, Permutation l1 l2 -> existsb f l1 = existsb f l2.
Proof.
  induction 1; simpl; auto; try congruence.
  rewrite !orb_assoc, (orb_comm (f y)). auto.
Qed.

Lemma contains_edges : forall l p, poly_contains ROps l p = existsb (hit p) (edges l) || par p (edges l).
Proof.
  intros [|A0 l] p; auto. unfold poly_contains. rewrite loop_pairs.
  rewrite (existsb_perm _ _ _ _ (edges_perm A0 l)), (par_perm p _ _ (edges_perm A0 l)). rewrite xorb_false_l. auto.
Qed.

Lemma hit_iff : forall p a b, hit p (a, b) = true <-> on_segment p a b.
Proof.
  intros. unfold hit; simpl. destruct (edge_step_R p a b) as [[H E]|[H [t [E _]]]]; rewrite E; split; intros; auto; try discriminate; contradiction.
Qed.
Lemma tog_iff : forall p a b, ~ on_segment p a b -> (tog p (a, b) = true <-> meets_ray p a b).
Proof.
  intros p a b H. unfold tog; simpl. destruct (edge_step_R p a b) as [[H' E]|[_ [t [E Ht]]]]; [contradiction|]. rewrite E. auto.
Qed.

Lemma contains_boundary : forall l p, on_boundary l p -> poly_contains ROps l p = true.
Proof.
  intros l p [a [b [Hin Hs]]]. rewrite contains_edges. apply orb_true_iff. left. apply existsb_exists. exists (a, b). split; auto.
  apply hit_iff; auto.
Qed.
Lemma hit_boundary : forall l p, existsb (hit p) (edges l) = true <-> on_boundary l p.
Proof.
  intros l p. rewrite existsb_exists. split.
  - intros [[a b] [Hin H]]. exists a, b. split; auto. apply hit_iff; auto.
  - intros [a [b [Hin H]]]. exists (a, b). split; auto. apply hit_iff; auto.
Qed.

Lemma ray_parity : forall p l, (forall a b, In (a, b) l -> ~ on_segment p a b) ->
  exists k, ray_count p l k /\ (par p l = true <-> Nat.Odd k).
Proof.
  intros p; induction l as [|[a b] l IH]; intros H.
  - exists O. split; [constructor|]. simpl. split; [discriminate|]. intros [m Hm]. lia.
  - destruct IH as [k [Hk Hp]]; [intros; apply H; right; auto|].
    assert (Ha : ~ on_segment p a b) by (apply H; left; auto). pose proof (tog_iff p a b Ha) as Ht.
    cbn [par]. destruct (tog p (a, b)).
    + exists (S k). split; [constructor; auto; apply Ht; auto|]. rewrite Nat.Odd_succ, <- Nat.even_spec.
      rewrite <- Nat.odd_spec in Hp. rewrite <- Nat.negb_odd. destruct (par p l), (Nat.odd k); simpl; intuition discriminate.
    + exists k. split; [apply ray_no; auto; intros M; apply Ht in M; discriminate|]. rewrite xorb_false_l. auto.
Qed.

Lemma even_odd : forall l p, ~ on_boundary l p ->
  exists k, ray_count p (edges l) k /\ (poly_contains ROps l p = true <-> Nat.Odd k).
Proof.
  intros l p H. destruct (ray_parity p (edges l)) as [k [Hk Hp]].
  - intros a b Hin Hs. apply H. exists a, b; auto.
  - exists k. split; auto. rewrite contains_edges.
    assert (E : existsb (hit p) (edges l) = false) by (apply not_true_iff_false; rewrite hit_boundary; auto).
    rewrite E. auto.
Qed.

(** the specification's ray count is unique *)
Lemma ray_count_fun : forall p l k1 k2, ray_count p l k1 -> ray_count p l k2 -> k1 = k2.
Proof. intros p l k1 k2 H1; revert k2; induction H1; intros k2 H2; inversion H2; subst; auto; try contradiction; f_equal; auto. Qed.

(** ** invariance *)
Lemma contains_perm : forall l1 l2 p, Permutation (edges l1) (edges l2) -> poly_contains ROps l1 p = poly_contains ROps l2 p.
Proof. intros. rewrite !contains_edges, (existsb_perm _ _ _ _ H), (par_perm p _ _ H). auto. Qed.

Lemma edges_rotate : forall a l, Permutation (edges (l ++ [a])) (edges (a :: l)).
Proof.
  intros a [|b l]; [apply Permutation_refl|].
  assert (E1 : edges ((b :: l) ++ [a]) = pairs b ((l ++ [a]) ++ [b])) by apply (combine_pairs (l ++ [a]) b b).
  assert (E2 : edges (a :: b :: l) = pairs a ((b :: l) ++ [a])) by apply (combine_pairs (b :: l) a a).
  rewrite E1, E2. rewrite <- app_assoc. simpl.
  rewrite (pairs_app l b a [b]). simpl. apply Permutation_sym. apply Permutation_cons_append.
Qed.
Lemma contains_rotate : forall a l p, poly_contains ROps (l ++ [a]) p = poly_contains ROps (a :: l) p.
Proof. intros. apply contains_perm, edges_rotate. Qed.
Lemma contains_start : forall l1 l2 p, poly_contains ROps (l2 ++ l1) p = poly_contains ROps (l1 ++ l2) p.
Proof.
  induction l1 as [|a l1 IH]; intros l2 p; [rewrite app_nil_r; auto|].
  cbn [app]. rewrite <- contains_rotate. rewrite <- app_assoc. rewrite <- (IH (l2 ++ [a]) p). rewrite <- app_assoc. auto.
Qed.

Lemma on_seg_sym : forall p a b, on_segment p a b -> on_segment p b a.
Proof.
  intros p a b [t [Ht E]]. exists (1 - t). split; [lra|]. rewrite E. apply pt_ext; rewrite ?along_x, ?along_y; ring.
Qed.
Lemma ray_sym : forall p a b, meets_ray p a b -> meets_ray p b a.
Proof. intros p a b [t [H1 [H2 H3]]]. exists (1 - t). split; [lra|]. split; [lra|]. destruct H3; [right|left]; lra. Qed.
Lemma hit_sym : forall p a b, hit p (a, b) = hit p (b, a).
Proof. intros. apply Bool.eq_iff_eq_true. rewrite !hit_iff. split; apply on_seg_sym. Qed.
Lemma tog_sym : forall p a b, hit p (a, b) = false -> tog p (a, b) = tog p (b, a).
Proof.
  intros p a b H. assert (N1 : ~ on_segment p a b) by (rewrite <- hit_iff; congruence).
  assert (N2 : ~ on_segment p b a) by (intros G; apply N1, on_seg_sym; auto).
  apply Bool.eq_iff_eq_true. rewrite !tog_iff by auto. split; apply ray_sym.
Qed.

Definition swp (e : pt * pt) : pt * pt := (snd e, fst e).
Lemma hits_swap : forall p l, existsb (hit p) (map swp l) = existsb (hit p) l.
Proof. induction l as [|[a b] l IH]; simpl; auto. unfold swp at 1; simpl. rewrite IH, hit_sym. auto. Qed.
Lemma par_swap : forall p l, existsb (hit p) l = false -> par p (map swp l) = par p l.
Proof.
  induction l as [|[a b] l IH]; simpl; intros H; auto. apply orb_false_iff in H. destruct H.
  unfold swp at 1; simpl. rewrite IH by auto. rewrite (tog_sym p a b) by auto. auto.
Qed.
Lemma pairs_rev : forall l A B, rev (map swp (pairs A (l ++ [B]))) = pairs B (rev l ++ [A]).
Proof.
  induction l as [|C l IH]; intros A B; simpl; auto.
  rewrite IH. unfold swp; simpl. rewrite <- app_assoc. simpl. rewrite (pairs_app (rev l) B C [A]). auto.
Qed.
Lemma edges_rev : forall l, Permutation (edges (rev l)) (map swp (edges l)).
Proof.
  intros [|a l]; [apply Permutation_refl|].
  eapply Permutation_trans; [simpl; apply edges_rotate|]. unfold edges. rewrite !combine_pairs.
  rewrite <- pairs_rev. apply Permutation_sym, Permutation_rev.
Qed.
Lemma contains_rev : forall l p, poly_contains ROps (rev l) p = poly_contains ROps l p.
Proof.
  intros l p. rewrite !contains_edges. rewrite (existsb_perm _ _ _ _ (edges_rev l)), (par_perm p _ _ (edges_rev l)), hits_swap.
  destruct (existsb (hit p) (edges l)) eqn:E; auto. rewrite par_swap; auto.
Qed.

Lemma shift_x : forall v p, px (shift v p) = px p + px v.
Proof. reflexivity. Qed.
Lemma shift_y : forall v p, py (shift v p) = py p + py v.
Proof. reflexivity. Qed.
Lemma shift_along : forall v a b t, shift v (along a b t) = along (shift v a) (shift v b) t.
Proof. intros; apply pt_ext; rewrite ?shift_x, ?shift_y, ?along_x, ?along_y, ?shift_x, ?shift_y; ring. Qed.
Lemma shift_inj : forall v p q, shift v p = shift v q -> p = q.
Proof.
  intros v p q H. pose proof (f_equal px H) as H1. pose proof (f_equal py H) as H2. rewrite !shift_x in H1. rewrite !shift_y in H2. apply pt_ext; lra.
Qed.
Lemma shift_seg : forall v p a b, on_segment (shift v p) (shift v a) (shift v b) <-> on_segment p a b.
Proof.
  intros. split; intros [t [Ht E]]; exists t; split; auto.
  - rewrite <- shift_along in E. eapply shift_inj; eauto.
  - rewrite E. apply shift_along.
Qed.
Lemma shift_ray : forall v p a b, meets_ray (shift v p) (shift v a) (shift v b) <-> meets_ray p a b.
Proof.
  intros. unfold meets_ray. rewrite !shift_x, !shift_y.
  split; intros [t [H1 [H2 H3]]]; exists t; (split; [lra|split; [lra|]]); destruct H3; [left|right|left|right]; lra.
Qed.
Lemma edges_map : forall f l, edges (map f l) = map (fun e => (f (fst e), f (snd e))) (edges l).
Proof.
  intros f [|a l]; auto. unfold edges. cbn [map]. rewrite <- (map_cons f).
  replace (map f l ++ [f a]) with (map f (l ++ [a])) by (rewrite map_app; auto).
  generalize (a :: l) (l ++ [a]). induction l0 as [|x l0 IH]; intros [|y l1]; simpl; auto. f_equal; auto.
Qed.
Lemma contains_shift : forall v l p, poly_contains ROps (map (shift v) l) (shift v p) = poly_contains ROps l p.
Proof.
  intros v l p. rewrite !contains_edges, edges_map.
  assert (G : forall es, existsb (hit (shift v p)) (map (fun e => (shift v (fst e), shift v (snd e))) es) = existsb (hit p) es /\
    (existsb (hit p) es = false -> par (shift v p) (map (fun e => (shift v (fst e), shift v (snd e))) es) = par p es)).
  { induction es as [|[a b] es [I1 I2]]; simpl; auto.
    assert (Hh : hit (shift v p) (shift v a, shift v b) = hit p (a, b)) by (apply Bool.eq_iff_eq_true; rewrite !hit_iff; apply shift_seg).
    rewrite Hh, I1. split; auto. intros H. apply orb_false_iff in H. destruct H as [H1 H2]. rewrite I2 by auto. f_equal.
    assert (N1 : ~ on_segment p a b) by (rewrite <- hit_iff; congruence).
    assert (N2 : ~ on_segment (shift v p) (shift v a) (shift v b)) by (rewrite shift_seg; auto).
    apply Bool.eq_iff_eq_true. rewrite !tog_iff by auto. apply shift_ray. }
  destruct (G (edges l)) as [G1 G2]. rewrite G1. destruct (existsb (hit p) (edges l)); auto.
Qed.

(** ** points outside the bounding box *)
Lemma edges_in : forall l a b, In (a, b) (edges l) -> In a l /\ In b l.
Proof.
  intros [|c l] a b H; [destruct H|]. unfold edges in H. apply in_combine_l in H as H1. apply in_combine_r in H as H2.
  split; auto. apply in_app_or in H2. destruct H2 as [H2|[H2|[]]]; [right|left]; auto.
Qed.

Definition up_ (p v : pt) : bool := if Rle_dec (py p) (py v) then true else false.
Fixpoint xpar (f : pt -> bool) (l : list (pt * pt)) : bool :=
  match l with [] => false | e :: l' => xorb (xorb (f (fst e)) (f (snd e))) (xpar f l') end.
Lemma xpar_pairs : forall f l A B, xpar f (pairs A (l ++ [B])) = xorb (f A) (f B).
Proof.
  induction l as [|C l IH]; intros A B; simpl; [destruct (f A), (f B); auto|].
  rewrite IH. destruct (f A), (f B), (f C); auto.
Qed.
Lemma xpar_edges : forall f l, xpar f (edges l) = false.
Proof. intros f [|a l]; auto. unfold edges. rewrite combine_pairs, xpar_pairs. apply xorb_nilpotent. Qed.

Lemma seg_between : forall p a b, on_segment p a b ->
  (px a <= px p <= px b \/ px b <= px p <= px a) /\ (py a <= py p <= py b \/ py b <= py p <= py a).
Proof.
  intros p a b [t [Ht E]]. rewrite E, along_x, along_y. split.
  - destruct (Rle_dec (px a) (px b)); [left|right].
    + pose proof (Rmult_le_pos t (px b - px a)). pose proof (Rmult_le_pos (1 - t) (px b - px a)). lra.
    + pose proof (Rmult_le_pos t (px a - px b)). pose proof (Rmult_le_pos (1 - t) (px a - px b)). lra.
  - destruct (Rle_dec (py a) (py b)); [left|right].
    + pose proof (Rmult_le_pos t (py b - py a)). pose proof (Rmult_le_pos (1 - t) (py b - py a)). lra.
    + pose proof (Rmult_le_pos t (py a - py b)). pose proof (Rmult_le_pos (1 - t) (py a - py b)). lra.
Qed.
Lemma ray_seg : forall p a b, meets_ray p a b -> exists q, on_segment q a b /\ py q = py p /\ px p < px q.
Proof. intros p a b [t [H1 [H2 H3]]]. exists (along a b t). split; [exists t; split; [lra|auto]|]. rewrite along_x, along_y. lra. Qed.

Lemma outside_bb : forall l p,
  (forall v, In v l -> px v < px p) \/ (forall v, In v l -> px p < px v) \/
  (forall v, In v l -> py v < py p) \/ (forall v, In v l -> py p < py v) ->
  poly_contains ROps l p = false.
Proof.
  intros l p H. rewrite contains_edges.
  assert (N : forall a b, In (a, b) (edges l) -> ~ on_segment p a b).
  { intros a b Hin Hs. apply edges_in in Hin. destruct Hin as [Ia Ib]. apply seg_between in Hs.
    destruct H as [H|[H|[H|H]]]; pose proof (H a Ia); pose proof (H b Ib); lra. }
  assert (E : existsb (hit p) (edges l) = false).
  { apply not_true_iff_false. rewrite hit_boundary. intros [a [b [Hin Hs]]]. eapply N; eauto. }
  rewrite E. simpl.
  assert (K : (forall v, In v l -> px p < px v) \/ (forall a b, In (a, b) (edges l) -> ~ meets_ray p a b)).
  { destruct H as [H|[H|[H|H]]]; [right|left; auto|right|right]; intros a b Hin M;
    apply edges_in in Hin; destruct Hin as [Ia Ib]; apply ray_seg in M; destruct M as [q [Hq [Hy Hx]]]; apply seg_between in Hq;
    pose proof (H a Ia); pose proof (H b Ib); lra. }
  destruct K as [K|K].
  - rewrite <- (xpar_edges (up_ p) l).
    assert (G : forall es, (forall a b, In (a, b) es -> In a l /\ In b l /\ ~ on_segment p a b) -> par p es = xpar (up_ p) es).
    { induction es as [|[a b] es IH]; intros Hes; simpl; auto. rewrite IH by (intros; apply Hes; right; auto). f_equal.
      destruct (Hes a b (or_introl eq_refl)) as [Ia [Ib Hn]]. pose proof (K a Ia). pose proof (K b Ib).
      pose proof (tog_iff p a b Hn) as Ht. unfold up_.
      assert (Mr : meets_ray p a b <-> (py a < py p <= py b \/ py b < py p <= py a)).
      { split.
        - intros [t [_ [Hy [[G1 G2]|[G1 G2]]]]]; [left|right].
          + pose proof (Rmult_lt_0_compat t (py b - py a)). pose proof (Rmult_le_pos (1 - t) (py b - py a)). lra.
          + pose proof (Rmult_le_pos t (py a - py b)). pose proof (Rmult_lt_0_compat (1 - t) (py a - py b)). lra.
        - intros Hy. assert (Hne : py b - py a <> 0) by lra. exists ((py p - py a) / (py b - py a)).
          set (t := (py p - py a) / (py b - py a)).
          assert (Et : t * (py b - py a) = py p - py a) by (unfold t; field; lra).
          assert (Htr : (py a < py b -> 0 < t <= 1) /\ (py b < py a -> 0 <= t < 1)).
          { split; intros G.
            - assert (0 < py b - py a) by lra. split; [apply Rmult_lt_reg_r with (py b - py a); lra|apply Rmult_le_reg_r with (py b - py a); lra].
            - assert (0 < py a - py b) by lra. split; [apply Rmult_le_reg_r with (py a - py b); lra|apply Rmult_lt_reg_r with (py a - py b); lra]. }
          assert (Ht01 : 0 <= t <= 1) by (destruct Hy; [assert (0 < t <= 1) by (apply Htr; lra)|assert (0 <= t < 1) by (apply Htr; lra)]; lra).
          split; [|split; [lra|]].
          + assert (S0 : on_segment (along a b t) a b) by (exists t; auto). apply seg_between in S0. rewrite along_x in S0. lra.
          + destruct Hy; [left|right]; (split; [lra|apply Htr; lra]). }
      rewrite Mr in Ht. destruct (tog p (a, b)), (Rle_dec (py p) (py a)), (Rle_dec (py p) (py b)); simpl; auto; exfalso;
        first [assert (true = true) as T0 by auto; apply Ht in T0; lra | assert (false = true) by (apply Ht; lra); discriminate]. }
    apply G. intros a b Hin. apply edges_in in Hin as Hin2. destruct Hin2. auto.
  - assert (G : forall es, (forall a b, In (a, b) es -> ~ on_segment p a b /\ ~ meets_ray p a b) -> par p es = false).
    { induction es as [|[a b] es IH]; intros Hes; simpl; auto. rewrite IH by (intros; apply Hes; right; auto).
      destruct (Hes a b (or_introl eq_refl)) as [H1 H2]. pose proof (tog_iff p a b H1). destruct (tog p (a, b)); auto. exfalso. apply H2, H0; auto. }
    apply G. intros a b Hin. split; [apply N; auto|apply K; auto].
Qed.

(** ** axis-parallel rectangles *)
Lemma rect_contains : forall x0 y0 x1 y1 p, x0 < x1 -> y0 < y1 ->
  (poly_contains ROps [P x0 y0; P x1 y0; P x1 y1; P x0 y1] p = true <-> x0 <= px p <= x1 /\ y0 <= py p <= y1).
Proof.
  intros x0 y0 x1 y1 p Hx Hy. split.
  - intros H. destruct (Rle_dec x0 (px p)) as [A|A]; [destruct (Rle_dec (px p) x1) as [B|B]; [destruct (Rle_dec y0 (py p)) as [C|C]; [destruct (Rle_dec (py p) y1) as [D|D]; [lra|]|]|]|]; exfalso;
    (rewrite outside_bb in H; [discriminate|]).
    + right; right; left. intros v [<-|[<-|[<-|[<-|[]]]]]; rewrite py_P; lra.
    + right; right; right. intros v [<-|[<-|[<-|[<-|[]]]]]; rewrite py_P; lra.
    + left. intros v [<-|[<-|[<-|[<-|[]]]]]; rewrite px_P; lra.
    + right; left. intros v [<-|[<-|[<-|[<-|[]]]]]; rewrite px_P; lra.
  - intros [H1 H2].
    destruct (existsb (hit p) (edges [P x0 y0; P x1 y0; P x1 y1; P x0 y1])) eqn:E; [rewrite contains_edges, E; auto|].
    assert (N : forall a b, In (a, b) (edges [P x0 y0; P x1 y0; P x1 y1; P x0 y1]) -> ~ on_segment p a b).
    { intros a b Hin Hs. assert (on_boundary [P x0 y0; P x1 y0; P x1 y1; P x0 y1] p) by (exists a, b; auto). apply hit_boundary in H. congruence. }
    rewrite contains_edges, E. simpl.
    assert (M1 : ~ meets_ray p (P x0 y0) (P x1 y0)) by (intros [t [_ [_ M]]]; rewrite !py_P in M; lra).
    assert (M3 : ~ meets_ray p (P x1 y1) (P x0 y1)) by (intros [t [_ [_ M]]]; rewrite !py_P in M; lra).
    assert (Hp0 : py p <> y0).
    { intros Z. apply (N (P x0 y0) (P x1 y0)); [left; auto|]. exists ((px p - x0) / (x1 - x0)). split.
      - split; [apply Rmult_le_pos; [lra|left; apply Rinv_0_lt_compat; lra]|]. apply Rmult_le_reg_r with (x1 - x0); [lra|].
        unfold Rdiv. rewrite Rmult_assoc, Rinv_l, Rmult_1_r by lra. lra.
      - apply pt_ext; rewrite ?along_x, ?along_y, ?px_P, ?py_P; [field; lra|rewrite Z; ring]. }
    assert (Hp1 : px p <> x1).
    { intros Z. apply (N (P x1 y0) (P x1 y1)); [right; left; auto|]. exists ((py p - y0) / (y1 - y0)). split.
      - split; [apply Rmult_le_pos; [lra|left; apply Rinv_0_lt_compat; lra]|]. apply Rmult_le_reg_r with (y1 - y0); [lra|].
        unfold Rdiv. rewrite Rmult_assoc, Rinv_l, Rmult_1_r by lra. lra.
      - apply pt_ext; rewrite ?along_x, ?along_y, ?px_P, ?py_P; [rewrite Z; ring|field; lra]. }
    assert (M2 : meets_ray p (P x1 y0) (P x1 y1)).
    { exists ((py p - y0) / (y1 - y0)). rewrite !px_P, !py_P. split; [lra|]. split; [field; lra|]. left. split; [lra|]. split.
      - apply Rdiv_lt_0_compat; lra.
      - apply Rmult_le_reg_r with (y1 - y0); [lra|]. unfold Rdiv. rewrite Rmult_assoc, Rinv_l, Rmult_1_r by lra. lra. }
    assert (M4 : ~ meets_ray p (P x0 y1) (P x0 y0)).
    { intros [t [M _]]. rewrite !px_P in M. lra. }
    assert (T1 : tog p (P x0 y0, P x1 y0) = false) by (apply not_true_iff_false; rewrite tog_iff; [auto|apply N; left; auto]).
    assert (T2 : tog p (P x1 y0, P x1 y1) = true) by (apply tog_iff; [apply N; right; left; auto|auto]).
    assert (T3 : tog p (P x1 y1, P x0 y1) = false) by (apply not_true_iff_false; rewrite tog_iff; [auto|apply N; right; right; left; auto]).
    assert (T4 : tog p (P x0 y1, P x0 y0) = false) by (apply not_true_iff_false; rewrite tog_iff; [auto|apply N; right; right; right; left; auto]).
    rewrite T1, T2, T3, T4. auto.
Qed.

(** ** triangles *)
Lemma ray_x : forall p a b X t, ~ on_segment p a b -> X = along a b t -> py X = py p ->
  ((py a < py b /\ 0 < t <= 1) \/ (py b < py a /\ 0 <= t < 1)) -> (meets_ray p a b <-> px p < px X).
Proof.
  intros p a b X t N EX Ey Ht. subst X. rewrite along_x, along_y in *. split.
  - intros [s [Hx [Hy _]]]. assert (Es : (t - s) * (py b - py a) = 0) by lra. apply Rmult_integral in Es.
    assert (t = s) by lra. subst s. auto.
  - intros Hx. exists t. split; auto.
Qed.

Lemma straddle_param : forall p a b, py a < py p <= py b \/ py b < py p <= py a ->
  exists t, 0 <= t <= 1 /\ ((py a < py b /\ 0 < t <= 1) \/ (py b < py a /\ 0 <= t < 1)) /\ py (along a b t) = py p.
Proof.
  intros p a b Hy. assert (Hne : py b - py a <> 0) by lra. exists ((py p - py a) / (py b - py a)).
  set (t := (py p - py a) / (py b - py a)).
  assert (Et : t * (py b - py a) = py p - py a) by (unfold t; field; lra).
  assert (Htr : (py a < py b -> 0 < t <= 1) /\ (py b < py a -> 0 <= t < 1)).
  { split; intros G.
    - assert (0 < py b - py a) by lra. split; [apply Rmult_lt_reg_r with (py b - py a); lra|apply Rmult_le_reg_r with (py b - py a); lra].
    - assert (0 < py a - py b) by lra. split; [apply Rmult_le_reg_r with (py a - py b); lra|apply Rmult_lt_reg_r with (py a - py b); lra]. }
  destruct Hy as [Hy|Hy].
  - assert (0 < t <= 1) by (apply Htr; lra). split; [lra|]. split; [left; lra|]. rewrite along_y. lra.
  - assert (0 <= t < 1) by (apply Htr; lra). split; [lra|]. split; [right; lra|]. rewrite along_y. lra.
Qed.

Lemma slice_in_triangle : forall p a b c t1 t2, 0 <= t1 <= 1 -> 0 <= t2 <= 1 ->
  py (along a b t1) = py p -> py (along b c t2) = py p ->
  px (along a b t1) <= px p <= px (along b c t2) \/ px (along b c t2) <= px p <= px (along a b t1) ->
  in_closed_triangle p a b c.
Proof.
  intros p a b c t1 t2 H1 H2 E1 E2 Hx.
  assert (G : forall lam, 0 <= lam <= 1 -> px p = px (along a b t1) + lam * (px (along b c t2) - px (along a b t1)) -> in_closed_triangle p a b c).
  { intros lam Hl Ep. exists ((1 - lam) * (1 - t1)), ((1 - lam) * t1 + lam * (1 - t2)), (lam * t2).
    rewrite ?along_x, ?along_y in *.
    split; [apply Rmult_le_pos; lra|]. split; [apply Rplus_le_le_0_compat; apply Rmult_le_pos; lra|]. split; [apply Rmult_le_pos; lra|].
    split; [ring|]. split; [rewrite Ep; ring|].
    replace (py p) with ((1 - lam) * (py a + t1 * (py b - py a)) + lam * (py b + t2 * (py c - py b))); [ring|]. rewrite E1, E2. ring. }
  set (X1 := px (along a b t1)) in *. set (X2 := px (along b c t2)) in *.
  destruct (Req_dec X1 X2) as [E|E].
  - apply (G 0); [lra|]. lra.
  - apply (G ((px p - X1) / (X2 - X1))); [|field; lra].
    destruct Hx as [Hx|Hx].
    + split; [apply Rmult_le_pos; [lra|left; apply Rinv_0_lt_compat; lra]|].
      apply Rmult_le_reg_r with (X2 - X1); [lra|]. unfold Rdiv. rewrite Rmult_assoc, Rinv_l, Rmult_1_r by lra. lra.
    + replace ((px p - X1) / (X2 - X1)) with ((X1 - px p) / (X1 - X2)) by (field; lra).
      split; [apply Rmult_le_pos; [lra|left; apply Rinv_0_lt_compat; lra]|].
      apply Rmult_le_reg_r with (X1 - X2); [lra|]. unfold Rdiv. rewrite Rmult_assoc, Rinv_l, Rmult_1_r by lra. lra.
Qed.

(** the vertex b is on the other side of the horizontal line than a and c *)
Definition odd_vertex (p a b c : pt) : Prop :=
  (py a < py p /\ py c < py p /\ py p <= py b) \/ (py p <= py a /\ py p <= py c /\ py b < py p).

Lemma odd_slice : forall p a b c, odd_vertex p a b c -> ~ on_segment p a b -> ~ on_segment p b c -> ~ on_segment p c a ->
  exists X1 X2, (exists t1 t2, 0 <= t1 <= 1 /\ 0 <= t2 <= 1 /\ X1 = along a b t1 /\ X2 = along b c t2) /\ py X1 = py p /\ py X2 = py p /\
    px X1 <> px p /\ px X2 <> px p /\
    (tog p (a, b) = true <-> px p < px X1) /\ (tog p (b, c) = true <-> px p < px X2) /\ tog p (c, a) = false.
Proof.
  intros p a b c Ho N1 N2 N3.
  destruct (straddle_param p a b) as [t1 [T1 [R1 Y1]]]; [destruct Ho; lra|].
  destruct (straddle_param p b c) as [t2 [T2 [R2 Y2]]]; [destruct Ho; lra|].
  exists (along a b t1), (along b c t2). split; [exists t1, t2; auto|]. split; auto. split; auto.
  split; [intros E; apply N1; exists t1; split; auto; apply pt_ext; auto|].
  split; [intros E; apply N2; exists t2; split; auto; apply pt_ext; auto|].
  split; [rewrite tog_iff by auto; eapply ray_x; eauto|]. split; [rewrite tog_iff by auto; eapply ray_x; eauto|].
  apply not_true_iff_false. rewrite tog_iff by auto. intros [t [_ [Hy [[G1 G2]|[G1 G2]]]]].
  - pose proof (Rmult_lt_0_compat t (py a - py c)). pose proof (Rmult_le_pos (1 - t) (py a - py c)). destruct Ho; lra.
  - pose proof (Rmult_le_pos t (py c - py a)). pose proof (Rmult_lt_0_compat (1 - t) (py c - py a)). destruct Ho; lra.
Qed.

Lemma odd_contains : forall p a b c, odd_vertex p a b c -> ~ on_segment p a b -> ~ on_segment p b c -> ~ on_segment p c a ->
  turn a b c <> 0 -> (poly_contains ROps [a; b; c] p = true <-> in_closed_triangle p a b c).
Proof.
  intros p a b c Ho N1 N2 N3 HD.
  destruct (odd_slice p a b c Ho N1 N2 N3) as [X1 [X2 [[t1 [t2 [T1 [T2 [EX1 EX2]]]]] [Y1 [Y2 [D1 [D2 [G1 [G2 G3]]]]]]]]].
  rewrite contains_edges. cbn [edges combine app].
  assert (E : existsb (hit p) [(a, b); (b, c); (c, a)] = false).
  { apply not_true_iff_false. rewrite existsb_exists. intros [[u v] [[H|[H|[H|[]]]] Hh]]; inversion H; subst u v; apply hit_iff in Hh; contradiction. }
  rewrite E. cbn [orb par]. rewrite G3.
  split.
  - intros Hx. subst X1 X2. apply (slice_in_triangle p a b c t1 t2); auto.
    destruct (tog p (a, b)), (tog p (b, c)); simpl in Hx; try discriminate.
    + right. assert (px p < px (along a b t1)) by (apply G1; auto).
      assert (~ px p < px (along b c t2)) by (intros W; apply G2 in W; discriminate). lra.
    + left. assert (px p < px (along b c t2)) by (apply G2; auto).
      assert (~ px p < px (along a b t1)) by (intros W; apply G1 in W; discriminate). lra.
  - intros [u [v [w [Hu [Hv [Hw [Hs [Ex Ey]]]]]]]].
    assert (Hu0 : u <> 0).
    { intros Z. apply N2. exists w. split; [lra|]. apply pt_ext; rewrite ?along_x, ?along_y, ?Ex, ?Ey; replace v with (1 - w) by lra; rewrite Z; ring. }
    assert (Hw0 : w <> 0).
    { intros Z. apply N1. exists v. split; [lra|]. apply pt_ext; rewrite ?along_x, ?along_y, ?Ex, ?Ey; replace u with (1 - v) by lra; rewrite Z; ring. }
    assert (F1 : turn a b p = w * turn a b c).
    { unfold turn. rewrite Ex, Ey. replace u with (1 - v - w) by lra. ring. }
    assert (F2 : turn b c p = u * turn a b c).
    { unfold turn. rewrite Ex, Ey. replace v with (1 - u - w) by lra. ring. }
    assert (F3 : turn a b p = (py b - py a) * (px X1 - px p)).
    { unfold turn. rewrite <- Y1. rewrite EX1, along_x, along_y. ring. }
    assert (F4 : turn b c p = (py b - py c) * (px p - px X2)).
    { unfold turn. rewrite <- Y2. rewrite EX2, along_x, along_y. ring. }
    assert (Hprod : 0 < (px X1 - px p) * (px p - px X2)).
    { assert (Hy : 0 < (py b - py a) * (py b - py c)).
      { destruct Ho as [Ho|Ho]; [apply Rmult_lt_0_compat; lra|].
        replace (_ * _) with ((py a - py b) * (py c - py b)) by ring. apply Rmult_lt_0_compat; lra. }
      apply Rmult_lt_reg_l with ((py b - py a) * (py b - py c)); auto. rewrite Rmult_0_r.
      replace (_ * _) with (((py b - py a) * (px X1 - px p)) * ((py b - py c) * (px p - px X2))) by ring.
      rewrite <- F3, <- F4, F1, F2. replace (_ * _) with (w * u * (turn a b c * turn a b c)) by ring.
      apply Rmult_lt_0_compat; [apply Rmult_lt_0_compat; lra|]. apply Rsqr_pos_lt; auto. }
    destruct (tog p (a, b)) eqn:T1'; destruct (tog p (b, c)) eqn:T2'; auto; exfalso.
    + assert (px p < px X1) by (apply G1; auto). assert (px p < px X2) by (apply G2; auto).
      assert (0 < (px X1 - px p) * (px X2 - px p)) by (apply Rmult_lt_0_compat; lra). lra.
    + assert (~ px p < px X1) by (intros W; apply G1 in W; discriminate). assert (~ px p < px X2) by (intros W; apply G2 in W; discriminate).
      assert (0 < (px p - px X1) * (px p - px X2)) by (apply Rmult_lt_0_compat; lra). lra.
Qed.

Lemma tri_rotate : forall p a b c, in_closed_triangle p a b c -> in_closed_triangle p b c a.
Proof. intros p a b c [u [v [w H]]]. exists v, w, u. decompose [and] H; repeat split; lra. Qed.
Lemma turn_rotate : forall a b c, turn b c a = turn a b c.
Proof. intros; unfold turn; ring. Qed.

Lemma triangle_contains : forall p a b c, turn a b c <> 0 -> (poly_contains ROps [a; b; c] p = true <-> in_closed_triangle p a b c).
Proof.
  intros p a b c HD.
  assert (OB : on_boundary [a; b; c] p -> in_closed_triangle p a b c).
  { intros [u [v [[H|[H|[H|[]]]] [t [Ht Ep]]]]]; inversion H; subst u v; [exists (1 - t), t, 0|exists 0, (1 - t), t|exists t, 0, (1 - t)];
      rewrite Ep, along_x, along_y; repeat split; try lra. }
  destruct (existsb (hit p) (edges [a; b; c])) eqn:E.
  { apply hit_boundary in E. split; [auto|]. intros _. apply contains_boundary; auto. }
  assert (NB : ~ on_boundary [a; b; c] p) by (rewrite <- hit_boundary; congruence).
  assert (N1 : ~ on_segment p a b) by (intros G; apply NB; exists a, b; simpl; auto).
  assert (N2 : ~ on_segment p b c) by (intros G; apply NB; exists b, c; simpl; auto).
  assert (N3 : ~ on_segment p c a) by (intros G; apply NB; exists c, a; simpl; auto).
  destruct (Rle_dec (py p) (py a)) as [Sa|Sa]; destruct (Rle_dec (py p) (py b)) as [Sb|Sb]; destruct (Rle_dec (py p) (py c)) as [Sc|Sc].
  - split.
    + intros H. rewrite contains_edges, E in H. cbn [orb edges combine app par] in H.
      assert (T : forall u v, ~ on_segment p u v -> py p <= py u -> py p <= py v -> tog p (u, v) = false).
      { intros u v Nuv Hu Hv. apply not_true_iff_false. rewrite tog_iff by auto. intros [t [_ [Hy [[G1 G2]|[G1 G2]]]]].
        - pose proof (Rmult_lt_0_compat t (py v - py u)). lra.
        - pose proof (Rmult_lt_0_compat (1 - t) (py u - py v)). lra. }
      rewrite !T in H by auto. discriminate.
    + intros [u [v [w [Hu [Hv [Hw [Hs [Ex Ey]]]]]]]].
      pose proof (Rmult_le_pos u (py a - py p)) as K1. pose proof (Rmult_le_pos v (py b - py p)) as K2. pose proof (Rmult_le_pos w (py c - py p)) as K3.
      assert (Es : u * (py a - py p) + v * (py b - py p) + w * (py c - py p) = 0).
      { replace (u * (py a - py p) + v * (py b - py p) + w * (py c - py p)) with (u * py a + v * py b + w * py c - (u + v + w) * py p) by ring. rewrite Hs, <- Ey. ring. }
      assert (Z1 : u * (py a - py p) = 0) by lra. assert (Z2 : v * (py b - py p) = 0) by lra. assert (Z3 : w * (py c - py p) = 0) by lra.
      apply Rmult_integral in Z1, Z2, Z3.
      destruct Z1 as [Z1|Z1]; [exfalso; apply N2; exists w; split; [lra|]; apply pt_ext; rewrite ?along_x, ?along_y, ?Ex, ?Ey; replace v with (1 - w) by lra; rewrite Z1; ring|].
      destruct Z2 as [Z2|Z2]; [exfalso; apply N3; exists u; split; [lra|]; apply pt_ext; rewrite ?along_x, ?along_y, ?Ex, ?Ey; replace w with (1 - u) by lra; rewrite Z2; ring|].
      destruct Z3 as [Z3|Z3]; [exfalso; apply N1; exists v; split; [lra|]; apply pt_ext; rewrite ?along_x, ?along_y, ?Ex, ?Ey; replace u with (1 - v) by lra; rewrite Z3; ring|].
      exfalso. apply HD. unfold turn. replace (py c - py a) with 0 by lra. replace (py b - py a) with 0 by lra. ring.
  - (* c is odd *)
    assert (Ho : odd_vertex p b c a) by (right; lra).
    rewrite <- (contains_rotate a [b; c]). change ([b; c] ++ [a]) with [b; c; a].
    rewrite odd_contains; auto; [|rewrite turn_rotate; auto]. split; intros; [apply tri_rotate, tri_rotate|apply tri_rotate]; auto.
  - assert (Ho : odd_vertex p a b c) by (right; lra). apply odd_contains; auto.
  - (* a is odd *)
    assert (Ho : odd_vertex p c a b) by (left; lra).
    rewrite (contains_rotate c [a; b]). rewrite odd_contains; auto; [|rewrite <- (turn_rotate c a b); auto]. split; intros; [apply tri_rotate|apply tri_rotate, tri_rotate]; auto.
  - assert (Ho : odd_vertex p c a b) by (right; lra).
    rewrite (contains_rotate c [a; b]). rewrite odd_contains; auto; [|rewrite <- (turn_rotate c a b); auto]. split; intros; [apply tri_rotate|apply tri_rotate, tri_rotate]; auto.
  - assert (Ho : odd_vertex p a b c) by (left; lra). apply odd_contains; auto.
  - assert (Ho : odd_vertex p b c a) by (left; lra).
    rewrite <- (contains_rotate a [b; c]). change ([b; c] ++ [a]) with [b; c; a].
    rewrite odd_contains; auto; [|rewrite turn_rotate; auto]. split; intros; [apply tri_rotate, tri_rotate|apply tri_rotate]; auto.
  - assert (Hf : poly_contains ROps [a; b; c] p = false).
    { apply outside_bb. right; right; left. intros v [<-|[<-|[<-|[]]]]; lra. }
    rewrite Hf. split; [discriminate|]. intros [u [v [w [Hu [Hv [Hw [Hs [Ex Ey]]]]]]]]. exfalso.
    pose proof (Rmult_le_pos u (py p - py a)). pose proof (Rmult_le_pos v (py p - py b)). pose proof (Rmult_le_pos w (py p - py c)).
    assert (Es : u * (py p - py a) + v * (py p - py b) + w * (py p - py c) = 0).
    { replace (u * (py p - py a) + v * (py p - py b) + w * (py p - py c)) with ((u + v + w) * py p - (u * py a + v * py b + w * py c)) by ring. rewrite Hs, <- Ey. ring. }
    assert (Z1 : u * (py p - py a) = 0) by lra. assert (Z2 : v * (py p - py b) = 0) by lra. assert (Z3 : w * (py p - py c) = 0) by lra.
    apply Rmult_integral in Z1, Z2, Z3. lra.
Qed.

(** ** contains (p, flag, eps) *)
Lemma psd_le_iff : forall p a b eps, a <> b -> exists d, pointSegmentDistance ROps p a b = Ok d /\
  (leb ROps d eps = true <-> exists q, on_segment q a b /\ dist p q <= eps).
Proof.
  intros p a b eps H. destruct (psd_R p a b H) as [t [d [Ht [E [Ed Hmin]]]]]. exists d. split; auto. rewrite leb_R. split.
  - intros Hd. exists (along a b t). split; [exists t; auto|]. rewrite <- Ed. auto.
  - intros [q [[s [Hs Eq]] Hq]]. subst q. specialize (Hmin s Hs). lra.
Qed.

Lemma boundary_loop_R : forall p eps first l A,
  (forall a b, In (a, b) (pairs A (l ++ [first])) -> a <> b) ->
  exists r, boundary_loop ROps p eps first A l = Ok r /\
    (r = true <-> exists a b q, In (a, b) (pairs A (l ++ [first])) /\ on_segment q a b /\ dist p q <= eps).
Proof.
  intros p eps first; induction l as [|B l IH]; intros A H; cbn [boundary_loop].
  - destruct (psd_le_iff p A first eps) as [d [E Hd]]; [apply H; left; auto|]. rewrite E. cbn [bind].
    destruct (leb ROps d eps).
    + exists true. split; auto. split; auto. intros _. destruct Hd as [Hd _]. destruct (Hd eq_refl) as [q Hq]. exists A, first, q. simpl; auto.
    + exists false. split; auto. split; [discriminate|]. intros [a [b [q [[Hin|[]] Hq]]]]. inversion Hin; subst. apply Hd. exists q; auto.
  - destruct (psd_le_iff p A B eps) as [d [E Hd]]; [apply H; left; auto|]. rewrite E. cbn [bind].
    destruct (leb ROps d eps).
    + exists true. split; auto. split; auto. intros _. destruct Hd as [Hd _]. destruct (Hd eq_refl) as [q Hq]. exists A, B, q. simpl; auto.
    + destruct (IH B) as [r [Er Hr]]; [intros; apply H; right; auto|]. exists r. split; auto. rewrite Hr. split.
      * intros [a [b [q [Hin Hq]]]]. exists a, b, q. split; [right; auto|auto].
      * intros [a [b [q [[Hin|Hin] Hq]]]]; [|exists a, b, q; auto]. inversion Hin; subst. exfalso.
        assert (false = true) by (apply Hd; exists q; auto). discriminate.
Qed.

Lemma contains_eps_R : forall l p flag eps, (forall a b, In (a, b) (edges l) -> a <> b) ->
  exists r, poly_contains_eps ROps l p flag eps = Ok r /\
    (r = true <-> if flag then poly_contains ROps l p = true \/ near_boundary l p eps
                  else poly_contains ROps l p = true /\ ~ near_boundary l p eps).
Proof.
  intros l p flag eps H. unfold poly_contains_eps.
  assert (B : exists nb, match l with [] => Ok false | A :: l' => boundary_loop ROps p eps A A l' end = Ok nb /\ (nb = true <-> near_boundary l p eps)).
  { destruct l as [|A l].
    - exists false. split; auto. split; [discriminate|]. intros [q [[a [b [[] _]]] _]].
    - destruct (boundary_loop_R p eps A l A) as [r [E Hr]].
      + intros a b Hin. apply H. unfold edges. rewrite combine_pairs. auto.
      + exists r. split; auto. rewrite Hr. split.
        * intros [a [b [q [Hin [Hs Hq]]]]]. exists q. split; auto. exists a, b. split; auto. unfold edges. rewrite combine_pairs. auto.
        * intros [q [[a [b [Hin Hs]]] Hq]]. exists a, b, q. split; auto. unfold edges in Hin. rewrite combine_pairs in Hin. auto. }
  destruct B as [nb [E Hnb]]. rewrite E. cbn [bind]. eexists; split; [reflexivity|]. destruct flag.
  - rewrite orb_true_iff, Hnb. tauto.
  - rewrite andb_true_iff, negb_true_iff, <- not_true_iff_false, Hnb. tauto.
Qed.
