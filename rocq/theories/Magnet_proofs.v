(** Surface currents of the magnets: which segments there are, what they add to the load, and their sum. *)
From Coq Require Import String.
From Coq Require Import List Arith ZArith NArith Bool Lia Reals Lra Permutation.
From Verif Require Import Base SumR AlgebraModel AlgebraSpec Coo_proofs Csr_proofs GeometryModel GeometrySpec DrawingModel DrawingSpec Geometry_proofs Polygon_proofs Circle_proofs DrawingR2_proofs MeshModel MeshSpec Adjacency_proofs Fem_proofs Energy_proofs Integral_proofs MeshGeo_proofs.
Import ListNotations.
Local Open Scope R_scope.


Lemma mid_R : forall p q : pt, midPoint ROps p q = Ok (P ((px p + px q) / 2) ((py p + py q) / 2)).
Proof. intros p q. unfold midPoint, two. cbn [div ROps ofZ]. rewrite !Rdivr_ok by lra. reflexivity. Qed.
Lemma segment_R : forall eps g (M : pt) i, (i < length g)%nat -> exists J, let p1 := nth i g org in let p2 := nth ((i + 1) mod length g) g org in
  ms_segment ROps eps g M i = Ok (p1, p2, J) /\
  (dist p1 p2 * J = px M * (px p2 - px p1) + py M * (py p2 - py p1) \/ dist p1 p2 * J = - (px M * (px p2 - px p1) + py M * (py p2 - py p1))) /\
  (p1 <> p2 -> forall q, beside eps p1 p2 q -> dist p1 p2 * J = (if poly_contains ROps g q then - 1 else 1) * (px M * (px p2 - px p1) + py M * (py p2 - py p1))).
Proof.
  intros eps g M i Hi. cbn zeta. unfold ms_segment. rewrite (get_lt _ g i org) by auto. cbn [bind].
  assert (Hj : ((i + 1) mod length g < length g)%nat) by (apply Nat.mod_upper_bound; lia).
  rewrite (get_lt _ g _ org) by auto. cbn [bind]. set (p1 := nth i g org). set (p2 := nth ((i + 1) mod length g) g org).
  change (normal ROps (vminus ROps p2 p1)) with (P (- (py p2 - py p1)) (px p2 - px p1)).
  assert (TE : div ROps (one ROps) (ofZ ROps 10) = Ok (1 / 10)) by (apply Rdiv_ok; cbn; lra).
  assert (DD : dist p1 p2 = dist (P (- (py p2 - py p1)) (px p2 - px p1)) (P 0 0)) by (unfold dist; rewrite !px_P, !py_P; f_equal; ring).
  destruct (Req_dec (dist p1 p2) 0) as [Z|NZ].
  - apply dist_zero in Z. rewrite <- Z. replace (P (- (py p1 - py p1)) (px p1 - px p1)) with (P 0 0) by (apply pt_ext; rewrite ?px_P, ?py_P; ring).
    rewrite normalize_zero. cbn [bind]. rewrite mid_R. cbn [bind]. rewrite TE. cbn [bind]. eexists. split; [reflexivity|]. rewrite dist_self. split; [left; ring|]. intros N. contradiction.
  - assert (N12 : P (- (py p2 - py p1)) (px p2 - px p1) <> P 0 0) by (intros X; rewrite X, dist_self in DD; auto).
    destruct (normalize_R _ N12) as [n [-> [Dn [Xn Yn]]]]. cbn [bind]. rewrite mid_R. cbn [bind]. rewrite TE. cbn [bind]. rewrite <- DD in Xn, Yn. rewrite px_P in Xn. rewrite py_P in Yn.
    set (test := vadd ROps _ _).
    assert (ET : test = P ((px p1 + px p2) / 2 + px n * eps / 10) ((py p1 + py p2) / 2 + py n * eps / 10)).
    { unfold test. apply pt_ext; rewrite ?px_P, ?py_P.
      - change ((px p1 + px p2) / 2 + px n * eps * (1 / 10) = (px p1 + px p2) / 2 + px n * eps / 10). field.
      - change ((py p1 + py p2) / 2 + py n * eps * (1 / 10) = (py p1 + py p2) / 2 + py n * eps / 10). field. }
    eexists. split; [reflexivity|].
    assert (CR : forall k, vcross ROps M (if (k : bool) then vmul ROps n (opp ROps (one ROps)) else n) = (if k then -1 else 1) * (px M * py n - py M * px n)).
    { intros k. destruct k; [change (px M * (py n * - (1)) - py M * (px n * - (1)) = -1 * (px M * py n - py M * px n))|change (px M * py n - py M * px n = 1 * (px M * py n - py M * px n))]; ring. }
    rewrite CR.
    assert (V : dist p1 p2 * (px M * py n - py M * px n) = px M * (px p2 - px p1) + py M * (py p2 - py p1)).
    { transitivity (px M * (dist p1 p2 * py n) - py M * (dist p1 p2 * px n)); [ring|]. rewrite <- Xn, <- Yn. ring. }
    split.
    + destruct (poly_contains ROps g test); [right|left]; rewrite <- V; ring.
    + intros _ q [n' [D1 [D2 [D3 ->]]]].
      assert (n' = n) as ->.
      { pose proof (dist_nonneg p1 p2). assert (PD : 0 < dist p1 p2) by lra.
        assert (S1 : px n' * px n' + py n' * py n' = 1). { pose proof (dist_sq n' org) as S1. rewrite D1 in S1. unfold org in S1. rewrite px_P, py_P in S1. lra. }
        assert (S2 : px n * px n + py n * py n = 1). { pose proof (dist_sq n (P 0 0)) as S2. rewrite Dn in S2. rewrite px_P, py_P in S2. lra. }
        assert (C1 : px n' * py n = py n' * px n).
        { apply (Rmult_eq_reg_l (dist p1 p2)); [|lra]. transitivity (px n' * (dist p1 p2 * py n)); [ring|]. transitivity (py n' * (dist p1 p2 * px n)); [|ring]. rewrite <- Xn, <- Yn. lra. }
        assert (C2 : 0 < px n' * px n + py n' * py n).
        { apply (Rmult_lt_reg_l (dist p1 p2)); auto. rewrite Rmult_0_r. replace (dist p1 p2 * (px n' * px n + py n' * py n)) with (px n' * (dist p1 p2 * px n) + py n' * (dist p1 p2 * py n)) by ring. rewrite <- Xn, <- Yn. lra. }
        assert (C3 : (px n' * px n + py n' * py n) * (px n' * px n + py n' * py n) = 1).
        { transitivity ((px n' * px n' + py n' * py n') * (px n * px n + py n * py n) - (px n' * py n - py n' * px n) * (px n' * py n - py n' * px n)); [ring|]. rewrite S1, S2, C1. ring. }
        assert (C4 : px n' * px n + py n' * py n = 1).
        { set (k := px n' * px n + py n' * py n) in *. assert (F : (k - 1) * (k + 1) = 0) by lra. apply Rmult_integral in F. destruct F; lra. }
        assert (C5 : (px n' - px n) * (px n' - px n) + (py n' - py n) * (py n' - py n) = 0).
        { transitivity ((px n' * px n' + py n' * py n') + (px n * px n + py n * py n) - 2 * (px n' * px n + py n' * py n)); [ring|]. rewrite S1, S2, C4. ring. }
        pose proof (sq_nonneg (px n' - px n)) as Q1. pose proof (sq_nonneg (py n' - py n)) as Q2.
        assert (Z1 : (px n' - px n) * (px n' - px n) = 0) by lra. assert (Z2 : (py n' - py n) * (py n' - py n) = 0) by lra.
        apply Rmult_integral in Z1. apply Rmult_integral in Z2. apply pt_ext; [destruct Z1|destruct Z2]; lra. }
      rewrite <- ET. rewrite <- V. destruct (poly_contains ROps g test); ring.
Qed.

(** ** The segments of one magnet *)
Lemma nth_error_ext_ : forall X (l l' : list X), (forall i, nth_error l i = nth_error l' i) -> l = l'.
Proof.
  intros X l. induction l as [|x l IH]; intros [|y l'] H; auto; [specialize (H O); discriminate H|specialize (H O); discriminate H|].
  pose proof (H O) as H0. injection H0 as ->. f_equal. apply IH. intros i. apply (H (S i)).
Qed.
Lemma F2_nth : forall X Y (Q : X -> Y -> Prop) l l', Forall2 Q l l' -> forall i x, nth_error l i = Some x -> exists y, nth_error l' i = Some y /\ Q x y.
Proof. intros X Y Q l l' H. induction H as [|a b l l' Hab H IH]; intros [|i] x E; try discriminate E; [injection E as <-; exists b; auto|apply IH; auto]. Qed.
Lemma F2_nth_r : forall X Y (Q : X -> Y -> Prop) l l', Forall2 Q l l' -> forall i y, nth_error l' i = Some y -> exists x, nth_error l i = Some x /\ Q x y.
Proof. intros X Y Q l l' H. induction H as [|a b l l' Hab H IH]; intros [|i] x E; try discriminate E; [injection E as <-; exists a; auto|apply IH; auto]. Qed.
Lemma edges_length : forall g : list pt, length (edges g) = length g.
Proof. intros [|a t]; auto. unfold edges. rewrite combine_length, app_length. cbn [length]. lia. Qed.
Lemma edges_index : forall (g : list pt) i, (i < length g)%nat -> nth_error (edges g) i = Some (nth i g org, nth ((i + 1) mod length g) g org).
Proof.
  intros [|a t] i Hi; [cbn in Hi; lia|]. unfold edges.
  rewrite (nth_error_nth' _ (org, org)) by (rewrite combine_length, app_length; cbn [length] in *; lia).
  rewrite combine_nth by (rewrite app_length; cbn [length]; lia). do 2 f_equal. cbn [length] in *.
  destruct (Nat.eq_dec i (length t)) as [->|N].
  - rewrite app_nth2 by lia. rewrite Nat.sub_diag. replace (length t + 1)%nat with (S (length t)) by lia. rewrite Nat.mod_same by lia. reflexivity.
  - rewrite app_nth1 by lia. rewrite Nat.mod_small by lia. replace (i + 1)%nat with (S i) by lia. reflexivity.
Qed.
Definition ends (s : pt * pt * R) : pt * pt := fst s.
(** what one magnet contributes: one segment per polygon edge *)
Lemma magnet_segments : forall eps g M, exists ss : list (pt * pt * R), map_res (ms_segment ROps eps g M) (seq 0 (length g)) = Ok ss /\ map ends ss = edges g /\
  Forall (fun s => dist (fst (ends s)) (snd (ends s)) * snd s = px M * (px (snd (ends s)) - px (fst (ends s))) + py M * (py (snd (ends s)) - py (fst (ends s))) \/
                   dist (fst (ends s)) (snd (ends s)) * snd s = - (px M * (px (snd (ends s)) - px (fst (ends s))) + py M * (py (snd (ends s)) - py (fst (ends s))))) ss /\
  (forall inside : bool, (forall a b q, In (a, b) (edges g) -> beside eps a b q -> poly_contains ROps g q = inside) ->
     Forall (fun s => dist (fst (ends s)) (snd (ends s)) * snd s = (if inside then -1 else 1) * (px M * (px (snd (ends s)) - px (fst (ends s))) + py M * (py (snd (ends s)) - py (fst (ends s))))) ss).
Proof.
  intros eps g M.
  destruct (map_res_ok _ _ (ms_segment ROps eps g M) (fun i s => ends s = (nth i g org, nth ((i + 1) mod length g) g org) /\
     (dist (fst (ends s)) (snd (ends s)) * snd s = px M * (px (snd (ends s)) - px (fst (ends s))) + py M * (py (snd (ends s)) - py (fst (ends s))) \/
      dist (fst (ends s)) (snd (ends s)) * snd s = - (px M * (px (snd (ends s)) - px (fst (ends s))) + py M * (py (snd (ends s)) - py (fst (ends s))))) /\
     (fst (ends s) <> snd (ends s) -> forall q, beside eps (fst (ends s)) (snd (ends s)) q -> dist (fst (ends s)) (snd (ends s)) * snd s = (if poly_contains ROps g q then -1 else 1) * (px M * (px (snd (ends s)) - px (fst (ends s))) + py M * (py (snd (ends s)) - py (fst (ends s))))))
     (seq 0 (length g))) as [ss [E F]].
  { intros i Hi. apply in_seq in Hi. destruct (segment_R eps g M i) as [J [E [J1 J2]]]; [lia|]. eexists. split; [exact E|]. unfold ends. cbn [fst snd]. auto. }
  assert (EE : map ends ss = edges g).
  { assert (LS : length ss = length g) by (rewrite <- (F2_length _ _ _ _ _ F), seq_length; auto).
    apply nth_error_ext_. intros i. destruct (lt_dec i (length g)) as [Hi|Hi].
    - rewrite edges_index by auto. rewrite nth_error_map.
      destruct (F2_nth _ _ _ _ _ F i i) as [s [Es [H1 _]]]; [rewrite (nth_error_nth' _ O) by (rewrite seq_length; auto); rewrite seq_nth by auto; reflexivity|].
      refine (eq_trans (f_equal (option_map ends) Es) _). cbn [option_map]. congruence.
    - assert (X : nth_error (map ends ss) i = None) by (apply nth_error_None; rewrite map_length; rewrite LS || (refine (eq_ind_r (fun k => (k <= i)%nat) _ LS)); lia). assert (Y : nth_error (edges g) i = None) by (apply nth_error_None; rewrite edges_length; lia). congruence. }
  exists ss. split; auto. split; auto. split.
  - clear EE E. induction F as [|i s l ss' [H1 [H2 H3]] F IH]; constructor; auto.
  - intros inside HI. rewrite Forall_forall. intros s Hs. destruct (In_nth_error _ _ Hs) as [k Hk].
    destruct (F2_nth_r _ _ _ _ _ F k s Hk) as [i [Hi [H1 [H2 H3]]]].
    destruct (Req_dec (dist (fst (ends s)) (snd (ends s))) 0) as [Z|NZ].
    + rewrite Z. apply dist_zero in Z. rewrite Z. ring.
    + assert (ND : fst (ends s) <> snd (ends s)) by (intros X; rewrite X, dist_self in NZ; auto).
      set (a := fst (ends s)) in *. set (b := snd (ends s)) in *. set (d := dist a b) in *.
      assert (PD : 0 < d) by (pose proof (dist_nonneg a b); unfold d in *; lra).
      assert (SQ : d * d = (px a - px b) * (px a - px b) + (py a - py b) * (py a - py b)) by apply dist_sq.
      set (n := P (- (py b - py a) / d) ((px b - px a) / d)).
      set (q := P ((px a + px b) / 2 + px n * eps / 10) ((py a + py b) / 2 + py n * eps / 10)).
      assert (B : beside eps a b q).
      { exists n. unfold n. rewrite px_P, py_P. split; [|split; [field; lra|split; [|reflexivity]]].
        - assert (X : dist n org * dist n org = 1).
          { rewrite dist_sq. unfold n, org. rewrite !px_P, !py_P. replace ((- (py b - py a) / d - 0) * (- (py b - py a) / d - 0) + ((px b - px a) / d - 0) * ((px b - px a) / d - 0)) with ((d * d) / (d * d)); [field; lra|]. rewrite SQ at 1. field. lra. }
          fold n. pose proof (dist_nonneg n org) as NN. set (kk := dist n org) in *. assert (Y : (kk - 1) * (kk + 1) = 0) by lra. apply Rmult_integral in Y. destruct Y; lra.
        - replace (- (py b - py a) / d * - (py b - py a) + (px b - px a) / d * (px b - px a)) with (d * d / d); [unfold Rdiv; rewrite Rmult_assoc, Rinv_r; lra|]. rewrite SQ. field. lra. }
      refine (eq_trans (H3 ND q B) _). rewrite (HI a b q); auto. replace (a, b) with (ends s) by (unfold a, b; destruct (ends s); auto). rewrite <- EE. apply in_map. auto.
Qed.
(** the polygon closes: the signed sum along its edges is zero *)
Lemma pairs_sum : forall (f : pt -> R) l A B, suml (pairs A (l ++ [B])) (fun e => f (snd e) - f (fst e)) = f B - f A.
Proof.
  intros f l. induction l as [|x l IH]; intros A B; cbn [app pairs]; rewrite suml_cons; cbn [fst snd].
  - unfold suml. cbn. ring.
  - rewrite IH. ring.
Qed.
Lemma closed_sum : forall (f : pt -> R) g, suml (edges g) (fun e => f (snd e) - f (fst e)) = 0.
Proof.
  intros f [|a t]; [reflexivity|]. unfold edges. rewrite (combine_pairs t a a). rewrite pairs_sum. ring.
Qed.
Lemma net_zero : forall eps g M (ss : list (pt * pt * R)) inside, map_res (ms_segment ROps eps g M) (seq 0 (length g)) = Ok ss ->
  (forall a b q, In (a, b) (edges g) -> beside eps a b q -> poly_contains ROps g q = inside) ->
  suml ss (fun s => dist (fst (ends s)) (snd (ends s)) * snd s) = 0.
Proof.
  intros eps g M ss inside E HI. destruct (magnet_segments eps g M) as [ss' [E' [EE [_ F]]]]. rewrite E in E'. injection E' as <-. specialize (F inside HI).
  set (k := if inside then -1 else 1) in *. rewrite Forall_forall in F.
  rewrite (suml_ext _ ss _ (fun s => k * ((px M * px (snd (ends s)) + py M * py (snd (ends s))) - (px M * px (fst (ends s)) + py M * py (fst (ends s)))))) by (intros s Hs; refine (eq_trans (F s Hs) _); ring).
  rewrite suml_scal. rewrite <- (suml_map _ _ ends ss (fun e => (px M * px (snd e) + py M * py (snd e)) - (px M * px (fst e) + py M * py (fst e)))). rewrite EE.
  rewrite (closed_sum (fun p => px M * px p + py M * py p)). ring.
Qed.

(** a rectangle drawn counterclockwise that is at least as wide and high as a tenth of epsilon: every test point is inside *)
Lemma unit_pos : forall (n : pt), dist n org = 1 -> (px n = 0 -> 0 < py n -> py n = 1) /\ (px n = 0 -> py n < 0 -> py n = -1) /\ (py n = 0 -> 0 < px n -> px n = 1) /\ (py n = 0 -> px n < 0 -> px n = -1).
Proof.
  intros n H. pose proof (dist_sq n org) as S. rewrite H in S. unfold org in S. rewrite px_P, py_P in S.
  repeat split; intros Z Q; rewrite Z in S.
  - assert (F : (py n - 1) * (py n + 1) = 0) by lra. apply Rmult_integral in F. destruct F; lra.
  - assert (F : (py n - 1) * (py n + 1) = 0) by lra. apply Rmult_integral in F. destruct F; lra.
  - assert (F : (px n - 1) * (px n + 1) = 0) by lra. apply Rmult_integral in F. destruct F; lra.
  - assert (F : (px n - 1) * (px n + 1) = 0) by lra. apply Rmult_integral in F. destruct F; lra.
Qed.
Lemma mult0 : forall a b : R, b <> 0 -> a * b = 0 -> a = 0.
Proof. intros a b N H. apply Rmult_integral in H. destruct H; auto. contradiction. Qed.
Lemma rect_inside : forall x0 y0 x1 y1 eps a b q, x0 < x1 -> y0 < y1 -> 0 <= eps -> eps / 10 <= x1 - x0 -> eps / 10 <= y1 - y0 ->
  In (a, b) (edges [P x0 y0; P x1 y0; P x1 y1; P x0 y1]) -> beside eps a b q -> poly_contains ROps [P x0 y0; P x1 y0; P x1 y1; P x0 y1] q = true.
Proof.
  intros x0 y0 x1 y1 eps a b q Hx Hy He Ex Ey HI [n [Dn [On [Ln ->]]]]. apply rect_contains; auto. rewrite px_P, py_P. pose proof (unit_pos n Dn) as [U1 [U2 [U3 U4]]].
  cbn [edges combine app In] in HI. destruct HI as [HI|[HI|[HI|[HI|[]]]]]; injection HI as <- <-; rewrite !px_P, !py_P in *.
  - assert (Z : px n = 0) by (apply (mult0 _ (x1 - x0)); lra). rewrite Z in *.
    assert (G : 0 < py n) by (apply (Rmult_lt_reg_r (x1 - x0)); lra). rewrite (U1 eq_refl G). lra.
  - assert (Z : py n = 0) by (apply (mult0 _ (y1 - y0)); lra). rewrite Z in *.
    assert (G : px n < 0) by (apply (Rmult_lt_reg_r (y1 - y0)); lra). rewrite (U4 eq_refl G). lra.
  - assert (Z : px n = 0) by (apply (mult0 _ (x1 - x0)); lra). rewrite Z in *.
    assert (G : py n < 0) by (apply (Rmult_lt_reg_r (x1 - x0)); lra). rewrite (U2 eq_refl G). lra.
  - assert (Z : py n = 0) by (apply (mult0 _ (y1 - y0)); lra). rewrite Z in *.
    assert (G : 0 < px n) by (apply (Rmult_lt_reg_r (y1 - y0)); lra). rewrite (U3 eq_refl G). lra.
Qed.

(** ** What the segments add to the load *)
Section Load.
Context {A : Type}.
Variable m : mesh ROps A.
Notation n := (length (m_points m)).
Lemma ne_add_num_val : forall (x : rexpr) (d : R) mu, ne_val (ne_add_num ROps x d) mu = ne_val x mu + d.
Proof. intros x d mu. unfold ne_val, ne_add_num. cbn [constant terms]. change (add ROps (constant ROps x) d) with (constant ROps x + d). ring. Qed.
(** 1 for a close edge, 0 otherwise *)
Definition hit (e : nat * nat) (s : pt * pt * R) : R :=
  match pointSegmentDistance ROps (pos m (fst e)) (fst (fst s)) (snd (fst s)), pointSegmentDistance ROps (pos m (snd e)) (fst (fst s)) (snd (fst s)) with
  | Ok d1, Ok d2 => if Rltb d1 (m_epsilon m * (1 / 10)) && Rltb d2 (m_epsilon m * (1 / 10)) then 1 else 0
  | _, _ => 0
  end.
Lemma hit_spec : forall e s, fst (fst s) <> snd (fst s) -> (close m e (fst s) -> hit e s = 1) /\ (~ close m e (fst s) -> hit e s = 0).
Proof.
  intros e [[q1 q2] J] N. cbn [fst snd] in N. unfold hit. cbn [fst snd].
  destruct (psd_spec (pos m (fst e)) q1 q2 N) as [d1 [E1 S1]]. destruct (psd_spec (pos m (snd e)) q1 q2 N) as [d2 [E2 S2]]. rewrite E1, E2.
  assert (CL : close m e (q1, q2) <-> d1 < m_epsilon m / 10 /\ d2 < m_epsilon m / 10).
  { unfold close. cbn [fst snd]. split.
    - intros [x1 [x2 [X1 [X2 [X3 X4]]]]]. rewrite (segdist_unique _ _ _ _ _ S1 X1), (segdist_unique _ _ _ _ _ S2 X2). auto.
    - intros [X1 X2]. exists d1, d2. auto. }
  destruct (Rltb d1 (m_epsilon m * (1 / 10)) && Rltb d2 (m_epsilon m * (1 / 10)))%bool eqn:X.
  - apply andb_true_iff in X as [X1 X2]. apply Rltb_true in X1. apply Rltb_true in X2. split; auto. intros C. exfalso. apply C. apply CL. lra.
  - split; auto. intros C. apply CL in C as [C1 C2]. apply andb_false_iff in X. destruct X as [X|X]; apply Rltb_false in X; lra.
Qed.
Lemma close_dec : forall e s, fst s <> snd s -> close m e s \/ ~ close m e s.
Proof.
  intros e s N. destruct (hit_spec e (s, 0) N) as [H1 H2]. cbn [fst] in *.
  destruct (psd_spec (pos m (fst e)) (fst s) (snd s) N) as [d1 [E1 S1]]. destruct (psd_spec (pos m (snd e)) (fst s) (snd s) N) as [d2 [E2 S2]].
  destruct (Rlt_dec d1 (m_epsilon m / 10)) as [A1|A1]; [destruct (Rlt_dec d2 (m_epsilon m / 10)) as [A2|A2]|].
  - left. exists d1, d2. auto.
  - right. intros [x1 [x2 [X1 [X2 [X3 X4]]]]]. apply A2. rewrite (segdist_unique _ _ _ _ _ S2 X2). auto.
  - right. intros [x1 [x2 [X1 [X2 [X3 X4]]]]]. apply A1. rewrite (segdist_unique _ _ _ _ _ S1 X1). auto.
Qed.
Lemma line_val : forall e s b, (fst e < n)%nat -> (snd e < n)%nat -> length b = n -> fst (fst s) <> snd (fst s) ->
  exists b', line_load ROps A m e s b = Ok b' /\ length b' = n /\
    forall i mu, (i < n)%nat -> ne_val (nth i b' (ne_zero ROps)) mu = ne_val (nth i b (ne_zero ROps)) mu + hit e s * (edge_length m e * snd s) * (delta i (fst e) + delta i (snd e)).
Proof.
  intros e [[q1 q2] J] b H1 H2 Lb N. cbn [fst snd] in N. unfold line_load, hit. cbn [fst snd]. rewrite !get_pos by auto. cbn [bind].
  destruct (psd_spec (pos m (fst e)) q1 q2 N) as [d1 [E1 S1]]. destruct (psd_spec (pos m (snd e)) q1 q2 N) as [d2 [E2 S2]].
  rewrite E1. cbn [bind]. rewrite E2. cbn [bind]. assert (TE : div ROps (one ROps) (ofZ ROps 10) = Ok (1 / 10)) by (apply Rdiv_ok; cbn; lra). rewrite TE. cbn [bind].
  change (mul ROps (m_epsilon m) (1 / 10)) with (m_epsilon m * (1 / 10)). cbn [ltb ROps].
  destruct (Rltb d1 (m_epsilon m * (1 / 10)) && Rltb d2 (m_epsilon m * (1 / 10)))%bool eqn:X.
  - rewrite distance_R. cbn [bind]. rewrite (get_lt _ b (fst e) (ne_zero ROps)) by lia. cbn [bind]. rewrite set_lt by lia. cbn [bind].
    set (b1 := upd b (fst e) _). assert (L1 : length b1 = n) by (unfold b1; rewrite upd_length; auto).
    rewrite (get_lt _ b1 (snd e) (ne_zero ROps)) by lia. cbn [bind]. rewrite set_lt by lia.
    eexists. split; [reflexivity|]. rewrite upd_length. split; auto.
    intros i mu Hi. rewrite nth_upd by lia. unfold delta. cbn [snd].
    assert (V1 : forall j, ne_val (nth j b1 (ne_zero ROps)) mu = ne_val (nth j b (ne_zero ROps)) mu + (if Nat.eqb j (fst e) then edge_length m e * J else 0)).
    { intros j. unfold b1. rewrite nth_upd by lia. destruct (Nat.eqb_spec j (fst e)) as [->|]; [|ring]. rewrite ne_add_num_val. reflexivity. }
    destruct (Nat.eqb_spec i (snd e)) as [->|Nj].
    + rewrite ne_add_num_val, V1. change (mul ROps (dist (pos m (fst e)) (pos m (snd e))) J) with (edge_length m e * J). destruct (Nat.eqb (snd e) (fst e)); ring.
    + rewrite V1. destruct (Nat.eqb i (fst e)); ring.
  - exists b. split; auto. split; auto. intros i mu Hi. ring.
Qed.
(** what one edge and one segment add to entry i *)
Definition share (i : nat) (e : nat * nat) (s : pt * pt * R) : R := hit e s * (edge_length m e * snd s) * (delta i (fst e) + delta i (snd e)).
Lemma lines_val : forall e segs b, (fst e < n)%nat -> (snd e < n)%nat -> length b = n -> Forall (fun s : pt * pt * R => fst (fst s) <> snd (fst s)) segs ->
  exists b', forM_list segs (line_load ROps A m e) b = Ok b' /\ length b' = n /\
    forall i mu, (i < n)%nat -> ne_val (nth i b' (ne_zero ROps)) mu = ne_val (nth i b (ne_zero ROps)) mu + suml segs (share i e).
Proof.
  intros e segs. induction segs as [|s segs IH]; intros b H1 H2 Lb F; cbn [forM_list].
  - exists b. split; auto. split; auto. intros i mu Hi. unfold suml. cbn. ring.
  - inversion F as [|? ? Fs Fr]; subst. destruct (line_val e s b H1 H2 Lb Fs) as [b1 [E [L1 V1]]]. rewrite E. cbn [bind].
    destruct (IH b1 H1 H2 L1 Fr) as [b' [E' [L' V']]]. exists b'. split; auto. split; auto.
    intros i mu Hi. rewrite suml_cons. rewrite V', V1 by auto. apply Rplus_assoc.
Qed.
Lemma all_lines_val : forall es segs b, Forall (fun e : nat * nat => (fst e < n)%nat /\ (snd e < n)%nat) es -> length b = n -> Forall (fun s : pt * pt * R => fst (fst s) <> snd (fst s)) segs ->
  exists b', forM_list es (fun e b => forM_list segs (line_load ROps A m e) b) b = Ok b' /\ length b' = n /\
    forall i mu, (i < n)%nat -> ne_val (nth i b' (ne_zero ROps)) mu = ne_val (nth i b (ne_zero ROps)) mu + suml es (fun e => suml segs (share i e)).
Proof.
  intros es segs. induction es as [|e es IH]; intros b F Lb FS; cbn [forM_list].
  - exists b. split; auto. split; auto. intros i mu Hi. unfold suml. cbn. ring.
  - inversion F as [|? ? [F1 F2] Fr]; subst. destruct (lines_val e segs b F1 F2 Lb FS) as [b1 [E [L1 V1]]]. rewrite E. cbn [bind].
    destruct (IH b1 Fr L1 FS) as [b' [E' [L' V']]]. exists b'. split; auto. split; auto.
    intros i mu Hi. rewrite suml_cons. rewrite V', V1 by auto. apply Rplus_assoc.
Qed.
End Load.

(** ** The whole load *)
Section Whole.
Context {A : Type}.
Variable m : mesh ROps A.
Variable ps : list A.
Variables (curJ : A -> R) (mag : A -> pt).
Notation n := (length (m_points m)).
Lemma segments_all : forall eps mgs, Forall (fun gm : list pt * pt => solid (fst gm)) mgs ->
  exists sss : list (list (pt * pt * R)), ms_segments ROps eps mgs = Ok (concat sss) /\
    Forall2 (fun gm ss => map_res (ms_segment ROps eps (fst gm) (snd gm)) (seq 0 (length (fst gm))) = Ok ss) mgs sss /\
    Forall (fun s : pt * pt * R => fst (fst s) <> snd (fst s)) (concat sss).
Proof.
  intros eps mgs F. unfold ms_segments.
  destruct (map_res_ok _ _ (fun gm : list pt * pt => map_res (ms_segment ROps eps (fst gm) (snd gm)) (seq 0 (length (fst gm))))
     (fun gm ss => map_res (ms_segment ROps eps (fst gm) (snd gm)) (seq 0 (length (fst gm))) = Ok ss) mgs) as [sss [E F2]].
  { intros gm Hg. destruct (magnet_segments eps (fst gm) (snd gm)) as [ss [E _]]. exists ss. auto. }
  exists sss. change (T ROps) with R in *. split; [refine (eq_trans (f_equal (fun r => bind r _) E) _); reflexivity|]. split; auto.
  clear E. induction F2 as [|gm ss mgs sss Es F2 IH]; cbn [concat]; [constructor|]. inversion F as [|? ? Fg Fr]; subst.
  apply Forall_app. split; auto. destruct (magnet_segments eps (fst gm) (snd gm)) as [ss' [E' [EE _]]]. pose proof (eq_trans (eq_sym Es) E') as EX. injection EX as EX. subst ss'.
  rewrite Forall_forall. intros s Hs. apply Fg. replace (fst (fst s), snd (fst s)) with (ends s) by (unfold ends; destruct (fst s); auto). rewrite <- EE. apply in_map. auto.
Qed.
Lemma sys_load : forall (S : nsystem ROps) mu a, vget (sb R (sys_eval S mu)) a = ne_val (nth a (sb _ S) (ne_zero ROps)) mu.
Proof.
  intros S mu a. unfold sys_eval, vget. cbn [sb]. assert (Z : 0 = ne_val (ne_zero ROps) mu) by (unfold ne_val, ne_zero, suml; cbn; ring). rewrite Z at 1.
  apply (map_nth (fun e => ne_val e mu)).
Qed.
Lemma ms_load : forall mp mgs es, fem_ready m ps -> (2 <= n)%nat ->
  mag_polygons ROps A mag (region_map (m_drawing m)) (polygons (m_drawing m)) (regions (m_drawing m)) [] = Ok mp ->
  ms_magnets ROps A mag (region_map (m_drawing m)) mp [] = Ok mgs -> Forall (fun gm => solid (fst gm)) mgs ->
  Forall (fun e : nat * nat => (fst e < n)%nat /\ (snd e < n)%nat) es ->
  exists S0 S sss, ms_surface ROps A curJ m = Ok S0 /\ ms_getFemSystem ROps A curJ mag m es = Ok S /\ sA _ S = sA _ S0 /\
    Forall2 (fun gm ss => map_res (ms_segment ROps (m_epsilon m) (fst gm) (snd gm)) (seq 0 (length (fst gm))) = Ok ss) mgs sss /\
    forall mu a, (a < n)%nat -> vget (sb R (sys_eval S mu)) a = vget (sb R (sys_eval S0 mu)) a + suml es (fun e => suml (concat sss) (share m a e)).
Proof.
  intros mp mgs es FR Hn Emp Emg FS FE. destruct (ms_surface_ok m ps curJ FR) as [S0 [E0 [VS [L [QM [QB [DT HV]]]]]]].
  destruct (segments_all (m_epsilon m) mgs FS) as [sss [Es [F2 FN]]].
  destruct (all_lines_val m es (concat sss) (sb _ S0) FE L FN) as [b' [Eb [Lb Vb]]].
  exists S0, (mkSys _ (sA _ S0) b'), sss. split; auto. split; [|split; auto; split; auto].
  - unfold ms_getFemSystem. rewrite E0. cbn [bind]. rewrite Emp. cbn [bind]. rewrite Emg. cbn [bind]. change (list (pt * pt * R)) with (list (vec ROps * vec ROps * T ROps)) in *. rewrite Es. cbn [bind].
    destruct (Nat.ltb_spec n 2); [lia|]. refine (eq_trans (f_equal (fun r => bind r _) Eb) _). reflexivity.
  - intros mu a Ha. rewrite !sys_load. cbn [sb]. apply Vb. auto.
Qed.
(** a region whose point lies in one polygon only: that polygon is entered once for each of its vertices *)
Lemma lone_magnet : forall rm id g p, nth_error rm id = Some p -> g <> [] -> ms_magnets ROps A mag rm [(id, [g])] [] = Ok (repeat (g, mag p) (length g)).
Proof.
  intros rm id g p H N. cbn [ms_magnets]. destruct g as [|a g]; [contradiction|]. unfold get. rewrite H. cbn [bind app]. reflexivity.
Qed.
Lemma suml_concat_repeat : forall X (ss : list X) f k, suml (concat (repeat ss k)) f = INR k * suml ss f.
Proof. intros X ss f k. induction k as [|k IH]; cbn [repeat concat]; [unfold suml; cbn; ring|]. rewrite suml_app, IH, S_INR. ring. Qed.
Lemma F2_repeat : forall X Y (Q : X -> Y -> Prop) x k l, (forall y y', Q x y -> Q x y' -> y = y') -> Forall2 Q (repeat x k) l -> forall y, Q x y -> l = repeat y k.
Proof.
  intros X Y Q x k l Hu H. remember (repeat x k) as r eqn:Er. revert k Er. induction H as [|a b r l Hab H IH]; intros [|k] Er y Hy; cbn in Er; try discriminate Er; auto.
  injection Er as -> ->. cbn [repeat]. f_equal; auto.
Qed.
Lemma ms_load_lone : forall id g p es, fem_ready m ps -> (2 <= n)%nat ->
  mag_polygons ROps A mag (region_map (m_drawing m)) (polygons (m_drawing m)) (regions (m_drawing m)) [] = Ok [(id, [g])] ->
  nth_error (region_map (m_drawing m)) id = Some p -> g <> [] -> solid g -> Forall (fun e : nat * nat => (fst e < n)%nat /\ (snd e < n)%nat) es ->
  exists S0 S ss, ms_surface ROps A curJ m = Ok S0 /\ ms_getFemSystem ROps A curJ mag m es = Ok S /\
    map_res (ms_segment ROps (m_epsilon m) g (mag p)) (seq 0 (length g)) = Ok ss /\
    forall mu a, (a < n)%nat -> vget (sb R (sys_eval S mu)) a = vget (sb R (sys_eval S0 mu)) a + INR (length g) * suml es (fun e => suml ss (share m a e)).
Proof.
  intros id g p es FR Hn Emp Ep Ng Sg FE.
  destruct (ms_load _ _ es FR Hn Emp (lone_magnet _ id g p Ep Ng)) as [S0 [S [sss [E0 [E1 [_ [F2 V]]]]]]]; auto.
  { rewrite Forall_forall. intros gm Hg. apply repeat_spec in Hg. subst gm. auto. }
  destruct (magnet_segments (m_epsilon m) g (mag p)) as [ss [Es _]].
  exists S0, S, ss. split; auto. split; auto. split; auto. intros mu a Ha. rewrite V by auto. f_equal.
  assert (ER : sss = repeat ss (length g)).
  { refine (F2_repeat _ _ _ _ _ _ _ F2 ss Es). cbn [fst snd]. intros y y' Q1 Q2. pose proof (eq_trans (eq_sym Q1) Q2) as Q. injection Q as Q. exact Q. }
  rewrite ER.
  rewrite (suml_ext _ es _ (fun e => INR (length g) * suml ss (share m a e))) by (intros e He; apply suml_concat_repeat). apply suml_scal.
Qed.
(** a region whose point lies in several polygons: the minimal ones are entered, as often as they occur *)
Lemma pick_filter : forall all l acc, exists gs, pick_magnets ROps all l acc = Ok (acc ++ gs) /\ gs = filter (fun h => match is_magnet ROps h all with Ok b => b | _ => false end) l.
Proof.
  intros all l. induction l as [|h l IH]; intros acc; cbn [pick_magnets filter]; [exists []; rewrite app_nil_r; auto|].
  destruct (is_magnet_R h all) as [b [E _]]. rewrite E. cbn [bind]. destruct (IH (if b then acc ++ [h] else acc)) as [gs [E' Eg]]. rewrite E'.
  destruct b; eexists; (split; [|reflexivity]); rewrite Eg, <- ?app_assoc; reflexivity.
Qed.
Lemma minimal_magnets : forall rm id g p k rest l, nth_error rm id = Some p -> (2 <= length l)%nat -> (0 < k)%nat -> Permutation l (repeat g k ++ rest) -> minimal l g -> (forall h, In h rest -> ~ minimal l h) ->
  ms_magnets ROps A mag rm [(id, l)] [] = Ok (repeat (g, mag p) k).
Proof.
  intros rm id g p k rest l Hp Hl Hk HP Hg Hr. destruct (pick_filter l l []) as [gs [E Eg]]. cbn [app] in E.
  assert (X : gs = repeat g k).
  { apply Permutation_repeat. rewrite Eg. set (f := fun h => _). rewrite (perm_filter _ f _ _ HP). rewrite filter_app.
    assert (F1 : filter f (repeat g k) = repeat g k).
    { assert (fg : f g = true) by (unfold f; destruct (is_magnet_R g l) as [b [E1 E2]]; rewrite E1; apply E2; auto). clear - fg. induction k as [|k IH]; cbn; [auto|rewrite fg, IH; auto]. }
    assert (F2 : filter f rest = []).
    { clear - Hr. induction rest as [|h r IH]; cbn [filter]; auto.
      assert (fh : f h = false) by (unfold f; destruct (is_magnet_R h l) as [b [E1 E2]]; rewrite E1; destruct b; auto; exfalso; apply (Hr h); [left; auto|apply E2; auto]). rewrite fh. apply IH. intros; apply Hr; right; auto. }
    rewrite F1, F2, app_nil_r. auto. }
  destruct l as [|a [|b l']]; [cbn in Hl; lia|cbn in Hl; lia|]. cbn [ms_magnets]. rewrite E. cbn [bind]. rewrite X. destruct k as [|k]; [lia|]. cbn [repeat]. unfold get. rewrite Hp. cbn [bind app map].
  f_equal. f_equal. clear. induction k; cbn; congruence.
Qed.
Lemma ms_load_times : forall mp g p k es, fem_ready m ps -> (2 <= n)%nat ->
  mag_polygons ROps A mag (region_map (m_drawing m)) (polygons (m_drawing m)) (regions (m_drawing m)) [] = Ok mp ->
  ms_magnets ROps A mag (region_map (m_drawing m)) mp [] = Ok (repeat (g, mag p) k) -> solid g -> Forall (fun e : nat * nat => (fst e < n)%nat /\ (snd e < n)%nat) es ->
  exists S0 S ss, ms_surface ROps A curJ m = Ok S0 /\ ms_getFemSystem ROps A curJ mag m es = Ok S /\
    map_res (ms_segment ROps (m_epsilon m) g (mag p)) (seq 0 (length g)) = Ok ss /\
    forall mu a, (a < n)%nat -> vget (sb R (sys_eval S mu)) a = vget (sb R (sys_eval S0 mu)) a + INR k * suml es (fun e => suml ss (share m a e)).
Proof.
  intros mp g p k es FR Hn Emp Emg Sg FE.
  destruct (ms_load _ _ es FR Hn Emp Emg) as [S0 [S [sss [E0 [E1 [_ [F2 V]]]]]]]; auto.
  { rewrite Forall_forall. intros gm Hg. apply repeat_spec in Hg. subst gm. auto. }
  destruct (magnet_segments (m_epsilon m) g (mag p)) as [ss [Es _]].
  exists S0, S, ss. split; auto. split; auto. split; auto. intros mu a Ha. rewrite V by auto. f_equal.
  assert (ER : sss = repeat ss k).
  { refine (F2_repeat _ _ _ _ _ _ _ F2 ss Es). cbn [fst snd]. intros y y' Q1 Q2. pose proof (eq_trans (eq_sym Q1) Q2) as Q. injection Q as Q. exact Q. }
  rewrite ER.
  rewrite (suml_ext _ es _ (fun e => INR k * suml ss (share m a e))) by (intros e He; apply suml_concat_repeat). apply suml_scal.
Qed.
(** the load in terms of the edges of the polygon: segment number k of g carries current c_k *)
Lemma load_times : forall mp g p k es, fem_ready m ps -> (2 <= n)%nat ->
  mag_polygons ROps A mag (region_map (m_drawing m)) (polygons (m_drawing m)) (regions (m_drawing m)) [] = Ok mp ->
  ms_magnets ROps A mag (region_map (m_drawing m)) mp [] = Ok (repeat (g, mag p) k) -> solid g -> Forall (fun e : nat * nat => (fst e < n)%nat /\ (snd e < n)%nat) es ->
  (forall a b q, In (a, b) (edges g) -> beside (m_epsilon m) a b q -> poly_contains ROps g q = true) ->
  exists S0 S, ms_surface ROps A curJ m = Ok S0 /\ ms_getFemSystem ROps A curJ mag m es = Ok S /\
    forall h, (forall e s, In s (edges g) -> (close m e s -> h e s = 1) /\ (~ close m e s -> h e s = 0)) ->
    forall mu a, (a < n)%nat -> vget (sb R (sys_eval S mu)) a = vget (sb R (sys_eval S0 mu)) a +
      INR k * suml es (fun e => suml (edges g) (fun s => h e s * (edge_length m e * (- (px (mag p) * (px (snd s) - px (fst s)) + py (mag p) * (py (snd s) - py (fst s))) / dist (fst s) (snd s))) * (delta a (fst e) + delta a (snd e)))).
Proof.
  intros mp g p k es FR Hn Emp Emg Sg FE HB. destruct (ms_load_times mp g p k es FR Hn Emp Emg Sg FE) as [S0 [S [ss [E0 [E1 [Es V]]]]]].
  exists S0, S. split; auto. split; auto. intros h Hh mu a Ha. rewrite V by auto. f_equal. f_equal. apply suml_ext. intros e He.
  destruct (magnet_segments (m_epsilon m) g (mag p)) as [ss' [Es' [EM [_ HI]]]]. pose proof (eq_trans (eq_sym Es) Es') as EX. injection EX as EX. subst ss'.
  specialize (HI true HB). rewrite <- EM. rewrite suml_map. apply suml_ext. intros s Hs. rewrite Forall_forall in HI. specialize (HI s Hs). cbn beta iota in HI.
  assert (NE : fst (ends s) <> snd (ends s)). { apply Sg. rewrite <- EM. rewrite <- surjective_pairing. apply in_map. auto. }
  unfold share, ends in *. destruct (hit_spec m e s NE) as [H1 H2]. destruct (Hh e (fst s)) as [K1 K2]; [rewrite <- EM; apply in_map; auto|].
  assert (HE : hit m e s = h e (fst s)). { destruct (close_dec m e (fst s) NE) as [C|C]; [rewrite H1, K1 by auto|rewrite H2, K2 by auto]; reflexivity. }
  rewrite HE. f_equal. f_equal. f_equal.
  assert (D : dist (fst (fst s)) (snd (fst s)) <> 0) by (intros D; apply NE; apply dist_zero; auto).
  apply (Rmult_eq_reg_l (dist (fst (fst s)) (snd (fst s)))); auto. rewrite HI. field. auto.
Qed.
End Whole.
