(** A circle drawn into a drawing and into an empty one, for every scalar type: the new points are the same. *)
From Coq Require Import String.
From Coq Require Import List Arith ZArith NArith Bool Lia.
From Verif Require Import Base GeometryModel DrawingModel DrawingSpec Drawing_proofs SetupModel.
Import ListNotations.

Section Boundary.
Variable o : Ops.
Variable lm : libm o.
Variable A : Type.
Notation drawing := (drawing o A).
Variable d0 : drawing.
Notation b := (length (points d0)).
Hypothesis wf : forall s, In s (segments d0) -> fst s < b /\ snd s < b.
Definition sh (s : nat * nat) : nat * nat := (b + fst s, b + snd s).
Definition lifts (d e : drawing) : Prop := points d = points d0 ++ points e /\ segments d = segments d0 ++ map sh (segments e).
Definition clear (p : vec o) : Prop := forall q, In q (points d0) -> vec_eqb o q p = Ok false.

Lemma find_clear : forall l i p l' f, (forall q, In q l -> vec_eqb o q p = Ok false) -> find_point o (l ++ l') i p f = find_point o l' (i + length l) p f.
Proof.
  induction l as [|q l IH]; intros i p l' f H; cbn [app find_point length]; [rewrite Nat.add_0_r; reflexivity|].
  rewrite (H q (or_introl eq_refl)). cbn [bind]. rewrite IH by (intros; apply H; right; assumption). f_equal. lia.
Qed.
Lemma find_shift : forall l i p f, find_point o l (b + i) p (option_map (Nat.add b) f) = (x <- find_point o l i p f ;; Ok (option_map (Nat.add b) x)).
Proof.
  induction l as [|q l IH]; intros i p f; cbn [find_point]; [reflexivity|]. destruct (vec_eqb o q p) as [m| | |]; cbn [bind]; try reflexivity.
  rewrite <- IH. rewrite Nat.add_succ_r. f_equal. destruct m; reflexivity.
Qed.
Lemma find_lift : forall d e p, lifts d e -> clear p -> find_point o (points d) 0 p None = (x <- find_point o (points e) 0 p None ;; Ok (option_map (Nat.add b) x)).
Proof.
  intros d e p [P _] C. rewrite P, find_clear by exact C. rewrite <- find_shift. rewrite Nat.add_0_r. reflexivity.
Qed.
Lemma check_drop : forall S1 S2 pts p1 p2 new x, (forall s, In s S1 -> same_segment s new = false) ->
  check_segments o lm pts p1 p2 new (S1 ++ S2) = Ok x -> check_segments o lm pts p1 p2 new S2 = Ok x.
Proof.
  induction S1 as [|s S1 IH]; intros S2 pts p1 p2 new x N H; [exact H|]. cbn [app check_segments] in H. rewrite (N s (or_introl eq_refl)) in H.
  assert (N' : forall s, In s S1 -> same_segment s new = false) by (intros; apply N; right; assumption).
  destruct (connected s new); [eapply IH; eauto|]. destruct (get pts (fst s)); cbn [bind] in H; try discriminate.
  destruct (get pts (snd s)); cbn [bind] in H; try discriminate. destruct (negb _); [eapply IH; eauto|]. destruct (segmentsIntersect _ _ _ _ _ _); [discriminate|eapply IH; eauto].
Qed.
Lemma eqb_shift : forall i j, Nat.eqb (b + i) (b + j) = Nat.eqb i j.
Proof. intros. destruct (Nat.eqb_spec i j); destruct (Nat.eqb_spec (b + i) (b + j)); auto; lia. Qed.
Lemma get_shift : forall (l : list (vec o)) i, get (points d0 ++ l) (b + i) = get l i.
Proof. intros l i. unfold get. rewrite nth_error_app2 by lia. replace (b + i - b) with i by lia. reflexivity. Qed.
Lemma check_shift : forall segs l p1 p2 new, check_segments o lm (points d0 ++ l) p1 p2 (sh new) (map sh segs) = check_segments o lm l p1 p2 new segs.
Proof.
  induction segs as [|s segs IH]; intros l p1 p2 new; [reflexivity|]. cbn [map check_segments].
  assert (E1 : same_segment (sh s) (sh new) = same_segment s new) by (unfold same_segment, sh; cbn [fst snd]; rewrite !eqb_shift; reflexivity).
  assert (E2 : connected (sh s) (sh new) = connected s new) by (unfold connected, sh; cbn [fst snd]; rewrite !eqb_shift; reflexivity).
  rewrite E1, E2. destruct (same_segment s new); [reflexivity|]. destruct (connected s new); [apply IH|]. change (fst (sh s)) with (b + fst s). change (snd (sh s)) with (b + snd s). rewrite !get_shift.
  destruct (get l (fst s)); cbn [bind]; try reflexivity. destruct (get l (snd s)); cbn [bind]; try reflexivity. rewrite !IH. reflexivity.
Qed.
(** the two end points, found or appended *)
Definition spot (f : option nat) (l : list (vec o)) (p : vec o) : nat * list (vec o) := match f with Some i => (i, l) | None => (length l, l ++ [p]) end.
Lemma draw_unfold : forall p1 p2 (d : drawing), drawSegment o lm A p1 p2 d =
  match find_point o (points d) 0 p1 None with
  | Ok f1 => match find_point o (points d) 0 p2 None with
     | Ok f2 => let '(i1, l1) := spot f1 (points d) p1 in let '(i2, l2) := spot f2 l1 p2 in
        match check_segments o lm l2 p1 p2 (i1, i2) (segments d) with
        | Ok true => (mkD (region_map d) (regions d) l2 (segments d ++ [(i1, i2)]) (polygons d), Ok tt)
        | Ok false => (mkD (region_map d) (regions d) l2 (segments d) (polygons d), Ok tt)
        | Throw s => (mkD (region_map d) (regions d) l2 (segments d) (polygons d), Throw s)
        | UB s => (mkD (region_map d) (regions d) l2 (segments d) (polygons d), UB s)
        | NonFin s => (mkD (region_map d) (regions d) l2 (segments d) (polygons d), NonFin s)
        end
     | Throw s => (d, Throw s) | UB s => (d, UB s) | NonFin s => (d, NonFin s)
     end
  | Throw s => (d, Throw s) | UB s => (d, UB s) | NonFin s => (d, NonFin s)
  end.
Proof.
  intros p1 p2 d. destruct d as [rm rg pts sg pg]. unfold drawSegment, mbind, mget, mlift. cbn [points segments region_map regions polygons].
  destruct (find_point o pts 0 p1 None) as [f1| | |]; try reflexivity. destruct (find_point o pts 0 p2 None) as [f2| | |]; try reflexivity.
  destruct f1, f2; cbn; (match goal with |- context [check_segments ?a ?b ?c ?d ?e ?f ?g] => destruct (check_segments a b c d e f g) as [[]| | |] end; reflexivity).
Qed.
Lemma spot_lift : forall f l p i l', spot f l p = (i, l') -> spot (option_map (Nat.add b) f) (points d0 ++ l) p = (b + i, points d0 ++ l').
Proof.
  intros [k|] l p i l' H; cbn in *; inversion H; subst; [reflexivity|]. rewrite app_length, app_assoc. reflexivity.
Qed.
Lemma lift_segment : forall p1 p2 d d' e, lifts d e -> clear p1 -> clear p2 -> drawSegment o lm A p1 p2 d = (d', Ok tt) ->
  exists e', drawSegment o lm A p1 p2 e = (e', Ok tt) /\ lifts d' e'.
Proof.
  intros p1 p2 d d' e L C1 C2 H. rewrite draw_unfold in H. rewrite draw_unfold. rewrite (find_lift _ _ _ L C1), (find_lift _ _ _ L C2) in H.
  destruct (find_point o (points e) 0 p1 None) as [f1| | |]; cbn [bind] in H; try discriminate.
  destruct (find_point o (points e) 0 p2 None) as [f2| | |]; cbn [bind] in H; try discriminate.
  destruct L as [P S]. rewrite P in H. destruct (spot f1 (points e) p1) as [i1 l1] eqn:Q1. rewrite (spot_lift _ _ _ _ _ Q1) in H.
  destruct (spot f2 l1 p2) as [i2 l2] eqn:Q2. rewrite (spot_lift _ _ _ _ _ Q2) in H. rewrite S in H.
  destruct (check_segments o lm (points d0 ++ l2) p1 p2 (b + i1, b + i2) (segments d0 ++ map sh (segments e))) as [x| | |] eqn:K; try discriminate.
  apply check_drop in K.
  - change (b + i1, b + i2) with (sh (i1, i2)) in K. rewrite check_shift in K. rewrite K. destruct x; inversion H; subst; eexists; (split; [reflexivity|]); split; cbn; auto.
    rewrite map_app, app_assoc. reflexivity.
  - intros s Hs. destruct (wf s Hs) as [W1 W2]. unfold same_segment. cbn [fst snd].
    destruct (Nat.eqb_spec (fst s) (b + i1)); [lia|]. destruct (Nat.eqb_spec (fst s) (b + i2)); [lia|]. reflexivity.
Qed.
Lemma loop_mine : forall c r st n ang p1 mine d d' mine', circle_loop o lm A c r st n ang p1 mine d = (d', Ok mine') -> exists vs, mine' = mine ++ vs.
Proof.
  intros c r st n. induction n as [|n IH]; intros ang p1 mine d d' mine' H; cbn [circle_loop] in H; cbv zeta in H.
  - inversion H. exists []. rewrite app_nil_r. reflexivity.
  - unfold mbind in H. destruct (drawSegment _ _ _ _ _ _) as [d1 [[]| | |]]; try discriminate. apply IH in H. destruct H as [vs ->]. rewrite <- app_assoc. eauto.
Qed.
Lemma lift_loop : forall c r st n ang p1 mine d d' mine' e, lifts d e -> circle_loop o lm A c r st n ang p1 mine d = (d', Ok mine') ->
  clear p1 -> (forall p, In p mine' -> clear p) -> exists e', circle_loop o lm A c r st n ang p1 mine e = (e', Ok mine') /\ lifts d' e'.
Proof.
  intros c r st n. induction n as [|n IH]; intros ang p1 mine d d' mine' e L H C1 C; cbn [circle_loop] in *; cbv zeta in *.
  - inversion H; subst. exists e. auto.
  - unfold mbind in *. destruct (drawSegment o lm A p1 _ d) as [d1 [[]| | |]] eqn:D; try discriminate.
    pose proof (loop_mine _ _ _ _ _ _ _ _ _ _ H) as [vs M].
    match type of D with drawSegment _ _ _ _ ?p2 _ = _ => assert (C2 : clear p2) by (apply C; rewrite M, <- app_assoc; apply in_or_app; right; left; reflexivity) end.
    destruct (lift_segment _ _ _ _ _ L C1 C2 D) as [e1 [E1 L1]]. rewrite E1. eapply IH; eauto.
Qed.
Lemma lift_circle : forall c r n d', drawCircle o lm A c r n d0 = (d', Ok tt) ->
  (forall ring q p, polygons d' = polygons d0 ++ [ring] -> In q (points d0) -> In p (mkV (add o (vx c) r) (vy c) :: ring) -> vec_eqb o q p = Ok false) ->
  exists e, drawCircle o lm A c r n (empty_drawing o A) = (e, Ok tt) /\ points d' = points d0 ++ points e /\ segments d' = segments d0 ++ map sh (segments e).
Proof.
  intros c r n d' H C. unfold drawCircle in *. destruct n as [|n].
  - cbn in *. inversion H; subst. eexists. split; [reflexivity|]. cbn. rewrite !app_nil_r. auto.
  - unfold mbind, mlift in *. destruct (div o _ _) as [st| | |]; try discriminate.
    destruct (circle_loop o lm A c r st (S n) _ _ [] d0) as [d1 [mine| | |]] eqn:L; try discriminate.
    assert (PG : polygons d' = polygons d0 ++ [mine]).
    { unfold push_polygon, mbind, mget, mput in H. inversion H; subst. cbn. f_equal. pose proof (Drawing_proofs.r_circle_loop o lm A c r st (S n) (zero o) (mkV (add o (vx c) r) (vy c)) [] d0) as K.
      rewrite L in K. destruct K as [_ [_ [_ [_ K]]]]. exact K. }
    assert (L0 : lifts d0 (empty_drawing o A)) by (split; cbn; rewrite app_nil_r; reflexivity).
    edestruct (lift_loop _ _ _ _ _ _ _ _ _ _ _ L0 L) as [e1 [E1 [P1 S1]]].
    + intros q Hq. eapply C; eauto. left. reflexivity.
    + intros p Hp q Hq. eapply C; eauto. right. exact Hp.
    + rewrite E1. unfold push_polygon, mbind, mget, mput in *. inversion H; subst. eexists. split; [reflexivity|]. cbn. auto.
Qed.
End Boundary.
