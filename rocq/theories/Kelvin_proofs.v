(** addKelvinBoundaryConditions: how the transformed mesh is glued to this one. *)
From Coq Require Import String.
From Coq Require Import List Arith ZArith NArith Bool Lia.
From Coq Require Import Reals Lra Permutation.
From Verif Require Import Base SumR AlgebraModel AlgebraSpec GeometryModel GeometrySpec Geometry_proofs DrawingModel DrawingSpec MeshModel MeshSpec Csr_proofs Fem_proofs Energy_proofs MeshGeo_proofs.
Import ListNotations.

Section Glue.
Variable o : Ops.
Context {A : Type}.
Notation vec := (vec o).
(** the same position, compared exactly *)
Definition same_pos (p q : vec) : bool := eqb o (vx q) (vx p) && eqb o (vy q) (vy p).

Lemma find_same_some : forall pts marks p j w, find_same o pts marks p j = Ok (Some w) ->
  j <= w < j + length pts /\ exists q, nth_error pts (w - j) = Some q /\ nth_error marks (w - j) = Some true /\ same_pos p q = true.
Proof.
  intros pts. induction pts as [|q pts IH]; intros marks p j w H; cbn [find_same] in H; [discriminate H|].
  destruct marks as [|b marks]; [discriminate H|]. cbn [length].
  destruct (b && (eqb o (vx q) (vx p) && eqb o (vy q) (vy p)))%bool eqn:X.
  - injection H as <-. rewrite Nat.sub_diag. apply andb_true_iff in X as [-> X]. split; [lia|]. exists q. auto.
  - apply IH in H as [H1 [q' [H2 [H3 H4]]]]. split; [lia|]. exists q'. replace (w - j) with (S (w - S j)) by lia. auto.
Qed.
Lemma find_same_total : forall pts marks p j, length pts <= length marks -> exists f, find_same o pts marks p j = Ok f.
Proof.
  intros pts. induction pts as [|q pts IH]; intros marks p j H; cbn [find_same]; [eexists; reflexivity|].
  destruct marks as [|b marks]; cbn [length] in H; [lia|].
  destruct (b && (eqb o (vx q) (vx p) && eqb o (vy q) (vy p)))%bool; [eexists; reflexivity|]. apply IH. lia.
Qed.
Lemma find_same_found : forall pts marks p j w q, length pts <= length marks -> nth_error pts w = Some q -> nth_error marks w = Some true -> same_pos p q = true ->
  exists w', find_same o pts marks p j = Ok (Some w').
Proof.
  intros pts. induction pts as [|q0 pts IH]; intros marks p j w q L H1 H2 H3; [destruct w; discriminate H1|].
  destruct marks as [|b marks]; [destruct w; discriminate H2|]. cbn [find_same]. cbn [length] in L.
  destruct (b && (eqb o (vx q0) (vx p) && eqb o (vy q0) (vy p)))%bool eqn:X; [eexists; reflexivity|].
  destruct w as [|w]; cbn [nth_error] in H1, H2.
  - injection H1 as ->. injection H2 as ->. unfold same_pos in H3. rewrite H3 in X. discriminate X.
  - apply (IH marks p (S j) w q); auto. lia.
Qed.

(** step 1: the pairs found for the boundary *)
Section Boundary.
Variable m : mesh o A.
Notation fs p := (find_same o (m_points m) (m_marks m) p 0).
Lemma match_spec : forall kp km i acc mp, match_boundary o A m kp km i acc = Ok mp -> exists ext, mp = acc ++ ext /\ NoDup (map fst ext) /\
  (forall a w, In (a, w) ext <-> i <= a /\ exists p, nth_error kp (a - i) = Some p /\ nth_error km (a - i) = Some true /\ fs p = Ok (Some w)) /\
  length ext + length (filter negb (firstn (length kp) km)) <= length kp.
Proof.
  intros kp. induction kp as [|p kp IH]; intros km i acc mp H; cbn [match_boundary] in H.
  - injection H as <-. exists []. rewrite app_nil_r. split; auto. split; [constructor|]. split; [|cbn; lia].
    intros a w. split; [intros []|]. intros [_ [p [X _]]]. destruct (a - i); discriminate X.
  - destruct km as [|b km]; [discriminate H|]. destruct b.
    + destruct (fs p) as [f|s|s|s] eqn:Ef; cbn [bind] in H; try discriminate H.
      destruct (IH _ _ _ _ H) as [ext [E [N [S L]]]]. destruct f as [j|].
      * exists ((i, j) :: ext). rewrite <- app_assoc in E. split; auto. split; [|split].
        -- cbn [map fst]. constructor; auto. intros X. apply in_map_iff in X as [[a w] [X1 X2]]. cbn in X1. subst a. apply S in X2. lia.
        -- intros a w. cbn [In]. rewrite S. split.
           ++ intros [X|[X1 [q [X2 [X3 X4]]]]].
              ** injection X as <- <-. split; [lia|]. exists p. rewrite Nat.sub_diag. auto.
              ** split; [lia|]. exists q. replace (a - i) with (Datatypes.S (a - Datatypes.S i)) by lia. auto.
           ++ intros [X1 [q [X2 [X3 X4]]]]. destruct (Nat.eq_dec a i) as [->|Na].
              ** left. rewrite Nat.sub_diag in X2. injection X2 as <-. rewrite Ef in X4. injection X4 as <-. auto.
              ** right. split; [lia|]. exists q. replace (a - i) with (Datatypes.S (a - Datatypes.S i)) in * by lia. auto.
        -- cbn [length firstn filter negb]. lia.
      * exists ext. split; auto. split; auto. split; [|cbn [length firstn filter negb]; lia].
        intros a w. rewrite S. split.
        -- intros [X1 [q [X2 [X3 X4]]]]. split; [lia|]. exists q. replace (a - i) with (Datatypes.S (a - Datatypes.S i)) by lia. auto.
        -- intros [X1 [q [X2 [X3 X4]]]]. destruct (Nat.eq_dec a i) as [->|Na].
           ++ rewrite Nat.sub_diag in X2. injection X2 as <-. rewrite Ef in X4. discriminate X4.
           ++ split; [lia|]. exists q. replace (a - i) with (Datatypes.S (a - Datatypes.S i)) in * by lia. auto.
    + destruct (IH _ _ _ _ H) as [ext [E [N [S L]]]]. exists ext. split; auto. split; auto. split; [|cbn [length firstn filter negb]; lia].
      intros a w. rewrite S. split.
      * intros [X1 [q [X2 [X3 X4]]]]. split; [lia|]. exists q. replace (a - i) with (Datatypes.S (a - Datatypes.S i)) by lia. auto.
      * intros [X1 [q [X2 [X3 X4]]]]. destruct (Nat.eq_dec a i) as [->|Na].
        -- rewrite Nat.sub_diag in X3. discriminate X3.
        -- split; [lia|]. exists q. replace (a - i) with (Datatypes.S (a - Datatypes.S i)) in * by lia. auto.
Qed.
Lemma match_total : forall kp km i acc, length kp <= length km -> length (m_points m) <= length (m_marks m) -> exists mp, match_boundary o A m kp km i acc = Ok mp.
Proof.
  intros kp. induction kp as [|p kp IH]; intros km i acc L LM; cbn [match_boundary]; [eexists; reflexivity|].
  destruct km as [|b km]; cbn [length] in L; [lia|]. destruct b; [|apply IH; auto; lia].
  destruct (find_same_total (m_points m) (m_marks m) p 0 LM) as [f ->]. cbn [bind]. apply IH; auto. lia.
Qed.
End Boundary.

(** the unmarked vertices, with their numbers *)
Fixpoint inner (kp : list vec) (km : list bool) (i : nat) : list (nat * vec) :=
  match kp, km with
  | p :: kp', b :: km' => if b then inner kp' km' (S i) else (i, p) :: inner kp' km' (S i)
  | _, _ => []
  end.
Lemma inner_in : forall kp km i a p, In (a, p) (inner kp km i) <-> i <= a /\ nth_error kp (a - i) = Some p /\ nth_error km (a - i) = Some false.
Proof.
  intros kp. induction kp as [|q kp IH]; intros km i a p.
  - split; [intros []|]. intros [_ [X _]]. destruct (a - i); discriminate X.
  - destruct km as [|b km]; [split; [intros []|]; intros [_ [_ X]]; destruct (a - i); discriminate X|]. cbn [inner].
    assert (STEP : (Datatypes.S i <= a /\ nth_error kp (a - Datatypes.S i) = Some p /\ nth_error km (a - Datatypes.S i) = Some false) <->
                   (a <> i /\ i <= a /\ nth_error (q :: kp) (a - i) = Some p /\ nth_error (b :: km) (a - i) = Some false)).
    { split.
      - intros [X1 X2]. replace (a - i) with (Datatypes.S (a - Datatypes.S i)) by lia. split; [lia|]. split; [lia|]. auto.
      - intros [X0 [X1 X2]]. replace (a - i) with (Datatypes.S (a - Datatypes.S i)) in X2 by lia. split; [lia|]. auto. }
    destruct b; [|cbn [In]]; rewrite IH, STEP.
    + split; [intros [_ X]; auto|]. intros [X1 [X2 X3]]. split; auto. intros ->. rewrite Nat.sub_diag in X3. discriminate X3.
    + split.
      * intros [X|[_ X]]; auto. injection X as <- <-. rewrite Nat.sub_diag. auto.
      * intros [X1 [X2 X3]]. destruct (Nat.eq_dec a i) as [->|N]; auto. left. rewrite Nat.sub_diag in X2. injection X2 as ->. auto.
Qed.
Lemma inner_nodup : forall kp km i, NoDup (map fst (inner kp km i)).
Proof.
  intros kp. induction kp as [|q kp IH]; intros km i; [constructor|]. destruct km as [|b km]; [constructor|]. cbn [inner]. destruct b; auto.
  cbn [map fst]. constructor; auto. intros X. apply in_map_iff in X as [[a p] [X1 X2]]. cbn in X1. subst a. apply inner_in in X2. lia.
Qed.
Lemma inner_length : forall kp km i, length kp <= length km -> length (inner kp km i) = length (filter negb (firstn (length kp) km)).
Proof.
  intros kp. induction kp as [|q kp IH]; intros km i L; [reflexivity|]. destruct km as [|b km]; cbn [length] in L; [lia|].
  cbn [inner length firstn filter]. destruct b; cbn [negb length]; rewrite IH by lia; auto.
Qed.
Lemma append_ok : forall kp km room i (st : list vec * list (nat * nat)), length kp <= length km -> length (fst st) + length (inner kp km i) <= room ->
  append_inner o room kp km i st = Ok (fst st ++ map snd (inner kp km i), snd st ++ combine (map fst (inner kp km i)) (seq (length (fst st)) (length (inner kp km i)))).
Proof.
  intros kp. induction kp as [|p kp IH]; intros km room i [pts mp] L R; cbn [append_inner fst snd] in *.
  - cbn [inner map combine]. rewrite !app_nil_r. reflexivity.
  - destruct km as [|b km]; cbn [length] in L; [lia|]. cbn [inner] in *. destruct b; [apply (IH km room (S i) (pts, mp)); cbn [fst]; [lia|auto]|].
    cbn [length] in R. destruct (Nat.ltb_spec (length pts) room); [|lia].
    rewrite (IH km room (S i)) by (cbn [fst]; rewrite ?app_length; cbn [length]; lia). cbn [fst snd map combine length seq].
    rewrite <- !app_assoc. cbn [app]. rewrite app_length. cbn [length]. rewrite Nat.add_1_r. reflexivity.
Qed.
Lemma append_result : forall kp km room i (st st' : list vec * list (nat * nat)), append_inner o room kp km i st = Ok st' ->
  st' = (fst st ++ map snd (inner kp km i), snd st ++ combine (map fst (inner kp km i)) (seq (length (fst st)) (length (inner kp km i)))).
Proof.
  intros kp. induction kp as [|p kp IH]; intros km room i [pts mp] st' H; cbn [append_inner fst snd] in *.
  - injection H as <-. cbn [inner map combine]. rewrite !app_nil_r. reflexivity.
  - destruct km as [|b km]; [discriminate H|]. cbn [inner] in *. destruct b; [apply (IH km room (S i) (pts, mp)); auto|].
    destruct (Nat.ltb (length pts) room); [|discriminate H]. apply IH in H. subst st'. cbn [fst snd map combine length seq].
    rewrite <- !app_assoc. cbn [app]. rewrite app_length. cbn [length]. rewrite Nat.add_1_r. reflexivity.
Qed.
(** the map *)
Lemma look_in : forall l k w, NoDup (map fst l) -> (look l k = Some w <-> In (k, w) l).
Proof.
  intros l k w. induction l as [|[a b] l IH]; intros N; cbn [look In]; [split; [discriminate|intros []]|]. cbn [map fst] in N. inversion N as [|? ? N1 N2]; subst.
  destruct (Nat.eqb_spec a k) as [->|Ne].
  - split; [intros H; injection H as <-; auto|]. intros [H|H]; [injection H as <-; auto|]. exfalso. apply N1. apply in_map_iff. exists (k, w). auto.
  - rewrite IH by auto. split; auto. intros [H|H]; auto. injection H as <- <-. contradiction.
Qed.
Lemma combine_seq_in : forall X (l : list (nat * X)) n a w, In (a, w) (combine (map fst l) (seq n (length l))) <-> n <= w /\ exists p, nth_error l (w - n) = Some (a, p).
Proof.
  intros X l. induction l as [|[b p] l IH]; intros n a w; cbn [map fst combine length seq In].
  - split; [intros []|]. intros [_ [p H]]. destruct (w - n); discriminate H.
  - rewrite IH. split.
    + intros [H|[H1 [q H2]]]; [injection H as <- <-; split; [lia|]; rewrite Nat.sub_diag; exists p; reflexivity|].
      split; [lia|]. exists q. replace (w - n) with (S (w - S n)) by lia. auto.
    + intros [H1 [q H2]]. destruct (Nat.eq_dec w n) as [->|N].
      * left. rewrite Nat.sub_diag in H2. injection H2 as -> ->. auto.
      * right. split; [lia|]. exists q. replace (w - n) with (S (w - S n)) in H2 by lia. auto.
Qed.
Lemma combine_fst : forall X (l : list (nat * X)) n, map fst (combine (map fst l) (seq n (length l))) = map fst l.
Proof. intros X l. induction l as [|[b p] l IH]; intros n; cbn [map fst combine length seq]; [reflexivity|]. rewrite IH. reflexivity. Qed.

(** where a vertex of the transformed mesh goes: a boundary vertex to the first boundary vertex of this mesh at the same
    position, an inner one to a new vertex at its position *)
Definition goes (m : mesh o A) (kp : list vec) (km : list bool) (pts : list vec) (v w : nat) : Prop :=
  exists p q, nth_error kp v = Some p /\ nth_error pts w = Some q /\
    ((nth_error km v = Some true /\ w < length (m_points m) /\ nth_error (m_marks m) w = Some true /\ same_pos p q = true) \/
     (nth_error km v = Some false /\ length (m_points m) <= w /\ q = p)).
Lemma glue_map : forall (m : mesh o A) kp km ext,
  NoDup (map fst ext) ->
  (forall a w, In (a, w) ext <-> 0 <= a /\ exists p, nth_error kp (a - 0) = Some p /\ nth_error km (a - 0) = Some true /\ find_same o (m_points m) (m_marks m) p 0 = Ok (Some w)) ->
  let pts := m_points m ++ map snd (inner kp km 0) in
  let mp := ext ++ combine (map fst (inner kp km 0)) (seq (length (m_points m)) (length (inner kp km 0))) in
  NoDup (map fst mp) /\
  (forall v w, look mp v = Some w -> goes m kp km pts v w) /\
  (forall v p, nth_error kp v = Some p -> nth_error km v = Some false -> exists w, look mp v = Some w) /\
  (forall v p, nth_error kp v = Some p -> nth_error km v = Some true -> length (m_points m) <= length (m_marks m) ->
     ((exists w, look mp v = Some w) <-> (exists w q, nth_error (m_points m) w = Some q /\ nth_error (m_marks m) w = Some true /\ same_pos p q = true))) /\
  (forall v v' w, look mp v = Some w -> look mp v' = Some w -> length (m_points m) <= w -> v = v').
Proof.
  intros m kp km ext N S pts mp. set (inn := inner kp km 0) in *. set (n := length (m_points m)) in *.
  assert (ND : NoDup (map fst mp)).
  { unfold mp. rewrite map_app, combine_fst. assert (NI : NoDup (map fst inn)) by apply inner_nodup.
    assert (DJ : forall a, In a (map fst ext) -> ~ In a (map fst inn)).
    { intros a H1 H2. apply in_map_iff in H1 as [[a1 w] [E1 H1]]. apply in_map_iff in H2 as [[a2 p] [E2 H2]]. cbn in E1, E2. subst a1 a2.
      apply S in H1 as [_ [q [_ [K _]]]]. apply inner_in in H2 as [_ [_ K']]. congruence. }
    revert N DJ. generalize (map fst ext) as l. intros l. induction l as [|a l IH]; intros N DJ; cbn [app]; auto.
    inversion N as [|? ? N1 N2]; subst. constructor; [|apply IH; auto; intros b Hb; apply DJ; right; auto].
    intros X. apply in_app_iff in X as [X|X]; [contradiction|]. apply (DJ a); [left; auto|auto]. }
  assert (LK : forall v w, look mp v = Some w <-> In (v, w) ext \/ (n <= w /\ exists p, nth_error inn (w - n) = Some (v, p))).
  { intros v w. rewrite look_in by auto. unfold mp. rewrite in_app_iff, combine_seq_in. reflexivity. }
  split; auto. split; [|split; [|split]].
  - intros v w H. apply LK in H. destruct H as [H|[H1 [p H2]]].
    + apply S in H as [_ [p [H1 [H2 H3]]]]. rewrite Nat.sub_0_r in H1, H2. apply find_same_some in H3 as [H3 [q [H4 [H5 H6]]]]. rewrite Nat.sub_0_r in H4, H5.
      exists p, q. split; auto. split; [unfold pts; rewrite nth_error_app1 by (fold n in H3; lia); auto|]. left. split; auto. split; [fold n; lia|]. auto.
    + pose proof (nth_error_In _ _ H2) as HI. apply inner_in in HI as [_ [K1 K2]]. rewrite Nat.sub_0_r in K1, K2.
      exists p, p. split; auto. split; [|right; auto]. unfold pts. rewrite nth_error_app2 by lia. fold n. rewrite nth_error_map. fold inn. rewrite H2. reflexivity.
  - intros v p H1 H2. assert (HI : In (v, p) inn) by (apply inner_in; rewrite Nat.sub_0_r; repeat split; auto; lia).
    destruct (In_nth_error _ _ HI) as [k Hk]. exists (n + k). apply LK. right. split; [lia|]. exists p. replace (n + k - n) with k by lia. auto.
  - intros v p H1 H2 LM. split.
    + intros [w H]. apply LK in H. destruct H as [H|[H3 [p' H4]]].
      * apply S in H as [_ [p' [K1 [K2 K3]]]]. rewrite Nat.sub_0_r in K1. rewrite H1 in K1. injection K1 as <-.
        apply find_same_some in K3 as [K3 [q [K4 [K5 K6]]]]. rewrite Nat.sub_0_r in K4, K5. exists w, q. auto.
      * apply nth_error_In in H4. apply inner_in in H4 as [_ [_ K]]. rewrite Nat.sub_0_r in K. congruence.
    + intros [w [q [K1 [K2 K3]]]]. destruct (find_same_found _ _ p 0 w q LM K1 K2 K3) as [w' E]. exists w'. apply LK. left. apply S.
      split; [lia|]. exists p. rewrite Nat.sub_0_r. auto.
  - intros v v' w H1 H2 HW. apply LK in H1. apply LK in H2.
    assert (G : forall u, In (u, w) ext -> False).
    { intros u H. apply S in H as [_ [p [_ [_ K]]]]. apply find_same_some in K as [K _]. fold n in K. lia. }
    destruct H1 as [H1|[_ [p1 H1]]]; [destruct (G _ H1)|]. destruct H2 as [H2|[_ [p2 H2]]]; [destruct (G _ H2)|]. rewrite H1 in H2. injection H2 as ->. auto.
Qed.

Lemma map_tris_spec : forall mp l ts, map_tris mp l = Ok ts -> Forall2 (fun t t' => look mp (t0 t) = Some (t0 t') /\ look mp (t1 t) = Some (t1 t') /\ look mp (t2 t) = Some (t2 t')) l ts.
Proof.
  intros mp l. induction l as [|t l IH]; intros ts H; cbn [map_tris] in H; [injection H as <-; constructor|].
  unfold map_tri, map_corner in H. destruct (look mp (t0 t)) eqn:E0; cbn [bind] in H; [|discriminate H]. destruct (look mp (t1 t)) eqn:E1; cbn [bind] in H; [|discriminate H].
  destruct (look mp (t2 t)) eqn:E2; cbn [bind] in H; [|discriminate H]. destruct (map_tris mp l) as [ts'|s|s|s]; cbn [bind] in H; try discriminate H.
  injection H as <-. constructor; auto.
Qed.
Lemma map_tris_total : forall mp l, (forall t v, In t l -> In v (corners t) -> exists w, look mp v = Some w) -> exists ts, map_tris mp l = Ok ts.
Proof.
  intros mp l. induction l as [|t l IH]; intros H; cbn [map_tris]; [eexists; reflexivity|]. unfold map_tri, map_corner.
  destruct (H t (t0 t)) as [w0 ->]; [left; auto|unfold corners; cbn; auto|]. destruct (H t (t1 t)) as [w1 ->]; [left; auto|unfold corners; cbn; auto|].
  destruct (H t (t2 t)) as [w2 ->]; [left; auto|unfold corners; cbn; auto|]. cbn [bind]. destruct IH as [ts ->]; [intros; apply (H t0); auto; right; auto|]. eexists; reflexivity.
Qed.
Lemma map_tris_bad : forall mp l t v, In t l -> In v (corners t) -> look mp v = None -> is_ub (map_tris mp l).
Proof.
  intros mp l. induction l as [|t0' l IH]; intros t v HI HC HN; [destruct HI|]. cbn [map_tris].
  assert (MT : (exists t', map_tri mp t0' = Ok t') \/ is_ub (map_tri mp t0')).
  { unfold map_tri, map_corner. destruct (look mp (t0 t0')); cbn [bind]; [|right; eexists; reflexivity]. destruct (look mp (t1 t0')); cbn [bind]; [|right; eexists; reflexivity].
    destruct (look mp (t2 t0')); cbn [bind]; [left|right]; eexists; reflexivity. }
  destruct HI as [->|HI].
  - assert (U : is_ub (map_tri mp t)).
    { unfold map_tri, map_corner. unfold corners in HC. cbn [In] in HC. destruct HC as [<-|[<-|[<-|[]]]]; rewrite HN; cbn [bind].
      - eexists; reflexivity.
      - destruct (look mp (t0 t)); eexists; reflexivity.
      - destruct (look mp (t0 t)); cbn [bind]; [destruct (look mp (t1 t)); cbn [bind]|]; eexists; reflexivity. }
    destruct U as [s ->]. exists s. reflexivity.
  - destruct MT as [[t' ->]|[s ->]]; [|exists s; reflexivity]. cbn [bind]. destruct (IH t v HI HC HN) as [s ->]. exists s. reflexivity.
Qed.

Variable peq : A -> A -> bool.
Variable dp : A.
Lemma region_ok : forall d : drawing o A, exists d' id, getRegionId o A peq dp d = (d', Ok id) /\ id < length (region_map d') /\
  (exists ext, region_map d' = region_map d ++ ext) /\ regions d' = regions d /\ points d' = points d /\ segments d' = segments d /\ polygons d' = polygons d /\
  exists p, nth_error (region_map d') id = Some p /\ (peq p dp = true \/ p = dp).
Proof.
  intros d. unfold getRegionId, DrawingModel.mbind, mget, mput, mret.
  assert (FP : forall l i k, find_prop A peq l i dp = Some k -> i <= k < i + length l /\ exists p, nth_error l (k - i) = Some p /\ peq p dp = true).
  { intros l. induction l as [|v l IH]; intros i k H; cbn [find_prop] in H; [discriminate H|]. destruct (peq v dp) eqn:X.
    - injection H as <-. cbn [length]. split; [lia|]. rewrite Nat.sub_diag. exists v. auto.
    - apply IH in H as [H1 [p [H2 H3]]]. cbn [length]. split; [lia|]. exists p. replace (k - i) with (S (k - S i)) by lia. auto. }
  destruct (find_prop A peq (region_map d) 0 dp) as [k|] eqn:E.
  - apply FP in E as [E1 [p [E2 E3]]]. rewrite Nat.sub_0_r in E2. exists d, k. split; auto. split; [lia|]. split; [exists []; rewrite app_nil_r; auto|]. repeat split; auto. exists p. auto.
  - eexists _, _. split; [reflexivity|]. cbn [region_map regions points segments polygons]. split; [rewrite app_length; cbn; lia|]. split; [exists [dp]; auto|].
    repeat split; auto. exists dp. split; auto. rewrite nth_error_app2 by lia. rewrite Nat.sub_diag. reflexivity.
Qed.

Definition glued (m k m' : mesh o A) (kp : list vec) (xs : list vec) (ts : list tri) (id : nat) : Prop :=
  m_points m' = m_points m ++ xs /\ m_tris m' = m_tris m ++ ts /\ m_attrs m' = m_attrs m ++ repeat id (length ts) /\
  m_marks m' = m_marks m /\ m_center m' = m_center m /\ m_radius m' = m_radius m /\ m_epsilon m' = m_epsilon m /\ m_depth m' = m_depth m /\
  (exists p, nth_error (region_map (m_drawing m')) id = Some p /\ (peq p dp = true \/ p = dp)) /\
  length xs = length (filter negb (firstn (length kp) (m_marks k))) /\
  (exists f : nat -> nat -> Prop, (forall v w, f v w -> goes m kp (m_marks k) (m_points m') v w) /\ (forall v v' w, f v w -> f v' w -> length (m_points m) <= w -> v = v') /\ (forall v w w', f v w -> f v w' -> w = w') /\
     Forall2 (fun t t' => f (t0 t) (t0 t') /\ f (t1 t) (t1 t') /\ f (t2 t) (t2 t')) (m_tris k) ts).
Lemma kelvin_glue : forall m k m', addKelvin o A peq dp m k = Ok m' -> length (m_points k) <= length (m_marks k) ->
  exists kp xs ts id, kelvin_points o (m_radius m) (vzero o) (m_marks k) (m_points k) = Ok kp /\ length kp = length (m_points k) /\ glued m k m' kp xs ts id.
Proof.
  intros m k m' H LK. unfold addKelvin in H. destruct (kelvin_points o (m_radius m) (vzero o) (m_marks k) (m_points k)) as [kp|s|s|s] eqn:EK; cbn [bind] in H; try discriminate H.
  assert (Lkp : length kp = length (m_points k)).
  { revert EK. unfold kelvin_points, forM_up. generalize (length (m_points k)) at 1 as c. generalize 0 as a. 
    intros a c. revert a. generalize (m_points k) as l. induction c as [|c IH]; intros l a E; cbn [forM_from] in E; [injection E as <-; auto|].
    unfold get in E at 1. destruct (nth_error (m_marks k) a) as [[|]|]; cbn [bind] in E; [apply IH in E; auto| |discriminate E].
    unfold get in E. destruct (nth_error l a) as [v|] eqn:Ev; cbn [bind] in E; [|discriminate E].
    destruct (kelvin_point o (m_radius m) (vzero o) v) as [w|s|s|s]; cbn [bind] in E; try discriminate E.
    assert (a < length l) by (apply nth_error_Some; congruence). rewrite set_lt in E by auto. cbn [bind] in E. apply IH in E. rewrite upd_length in E. auto. }
  destruct (match_boundary o A m kp (m_marks k) 0 []) as [ext0|s|s|s] eqn:EM; cbn [bind] in H; try discriminate H.
  destruct (match_spec m _ _ _ _ _ EM) as [ext [-> [N [S L]]]]. cbn [app] in *.
  destruct (append_inner o _ kp (m_marks k) 0 (m_points m, ext)) as [[pts mp]|s|s|s] eqn:EA; cbn [bind] in H; try discriminate H.
  apply append_result in EA. cbn [fst snd] in EA. injection EA as -> ->.
  destruct (region_ok (m_drawing m)) as [d' [id [ER [HID [_ [_ [_ [_ [_ HP]]]]]]]]]. rewrite ER in H. cbn [bind] in H.
  destruct (map_tris _ (m_tris k)) as [ts|s|s|s] eqn:ET; cbn [bind] in H; try discriminate H. injection H as <-.
  destruct (glue_map m kp (m_marks k) ext N S) as [ND [GO [_ [_ INJ]]]].
  exists kp, (map snd (inner kp (m_marks k) 0)), ts, id. split; auto. split; auto. unfold glued. cbn [m_points m_tris m_attrs m_marks m_center m_radius m_epsilon m_depth m_drawing].
  repeat (split; [solve [auto]|]). split; [rewrite map_length; apply inner_length; rewrite Lkp; auto|].
  eexists (fun v w => look _ v = Some w). split; [exact GO|]. split; [exact INJ|]. split; [intros v w w' H1 H2; rewrite H1 in H2; injection H2 as ->; auto|].
  apply map_tris_spec. auto.
Qed.
(** every boundary vertex used by the transformed mesh has a partner *)
Definition partnered (m k : mesh o A) (kp : list vec) : Prop :=
  forall t v p, In t (m_tris k) -> In v (corners t) -> nth_error kp v = Some p -> nth_error (m_marks k) v = Some true ->
    exists w q, nth_error (m_points m) w = Some q /\ nth_error (m_marks m) w = Some true /\ same_pos p q = true.
Lemma kelvin_outcome : forall m k kp, kelvin_points o (m_radius m) (vzero o) (m_marks k) (m_points k) = Ok kp -> length kp = length (m_points k) ->
  length (m_points k) <= length (m_marks k) -> length (m_points m) <= length (m_marks m) -> Forall (tri_in (length (m_points k))) (m_tris k) ->
  (partnered m k kp -> exists m', addKelvin o A peq dp m k = Ok m') /\ (~ partnered m k kp -> ~ exists m', addKelvin o A peq dp m k = Ok m') /\
  ((exists t v p, In t (m_tris k) /\ In v (corners t) /\ nth_error kp v = Some p /\ nth_error (m_marks k) v = Some true /\
      forall w q, nth_error (m_points m) w = Some q -> nth_error (m_marks m) w = Some true -> same_pos p q = false) -> is_ub (addKelvin o A peq dp m k)).
Proof.
  intros m k kp EK Lkp LK LM HT. unfold addKelvin. rewrite EK. cbn [bind].
  destruct (match_total m kp (m_marks k) 0 []) as [ext0 EM]; [rewrite Lkp; auto|auto|]. rewrite EM. cbn [bind].
  destruct (match_spec m _ _ _ _ _ EM) as [ext [-> [N [S L]]]]. cbn [app] in *.
  rewrite append_ok by (cbn [fst]; rewrite ?inner_length by (rewrite Lkp; auto); lia). cbn [bind fst snd].
  destruct (region_ok (m_drawing m)) as [d' [id [ER _]]]. rewrite ER. cbn [bind].
  destruct (glue_map m kp (m_marks k) ext N S) as [ND [GO [TI [TB _]]]].
  assert (RNG : forall t v, In t (m_tris k) -> In v (corners t) -> exists p b, nth_error kp v = Some p /\ nth_error (m_marks k) v = Some b).
  { intros t v Ht Hv. rewrite Forall_forall in HT. specialize (HT t Ht). assert (V : v < length (m_points k)) by (destruct HT as [T0 [T1 T2]]; unfold corners in Hv; cbn [In] in Hv; destruct Hv as [<-|[<-|[<-|[]]]]; auto).
    destruct (nth_error kp v) as [p|] eqn:E1; [|apply nth_error_None in E1; lia]. destruct (nth_error (m_marks k) v) as [b|] eqn:E2; [|apply nth_error_None in E2; lia]. exists p, b. auto. }
  split; [|split].
  - intros PT. match goal with |- exists m', bind ?f _ = _ => assert (X : exists ts, f = Ok ts) end.
    { apply map_tris_total. intros t v Ht Hv. destruct (RNG t v Ht Hv) as [p [b [E1 E2]]]. destruct b; [|apply (TI v p); auto].
      apply (TB v p); auto. apply (PT t v p); auto. }
    destruct X as [ts ->]. cbn [bind]. eexists; reflexivity.
  - intros NP [m' H]. apply NP. intros t v p Ht Hv E1 E2.
    match type of H with bind ?f _ = _ => destruct f as [ts|s|s|s] eqn:ET; cbn [bind] in H; try discriminate H end.
    assert (X : exists w, look (ext ++ combine (map fst (inner kp (m_marks k) 0)) (seq (length (m_points m)) (length (inner kp (m_marks k) 0)))) v = Some w).
    { destruct (look (ext ++ combine (map fst (inner kp (m_marks k) 0)) (seq (length (m_points m)) (length (inner kp (m_marks k) 0)))) v) eqn:EL; [eexists; reflexivity|].
      destruct (map_tris_bad _ _ t v Ht Hv EL) as [s EB]. rewrite ET in EB. discriminate EB. }
    apply (TB v p); auto.
  - intros [t [v [p [Ht [Hv [E1 [E2 HN]]]]]]].
    assert (EL : look (ext ++ combine (map fst (inner kp (m_marks k) 0)) (seq (length (m_points m)) (length (inner kp (m_marks k) 0)))) v = None).
    { destruct (look (ext ++ combine (map fst (inner kp (m_marks k) 0)) (seq (length (m_points m)) (length (inner kp (m_marks k) 0)))) v) as [w|] eqn:EL; auto.
      assert (X : exists w, look (ext ++ combine (map fst (inner kp (m_marks k) 0)) (seq (length (m_points m)) (length (inner kp (m_marks k) 0)))) v = Some w) by (exists w; auto).
      apply (TB v p) in X as [w' [q [X1 [X2 X3]]]]; auto. rewrite (HN w' q) in X3 by auto. discriminate X3. }
    destruct (map_tris_bad _ _ t v Ht Hv EL) as [s ->]. exists s. reflexivity.
Qed.
End Glue.

Section Image.
Variable o : Ops.
Lemma kelvin_points_spec : forall r c marks pts kp, kelvin_points o r c marks pts = Ok kp -> length kp = length pts /\
  forall i p, nth_error pts i = Some p -> exists q, nth_error kp i = Some q /\ (nth_error marks i = Some true -> q = p) /\ (nth_error marks i = Some false -> kelvin_point o r c p = Ok q).
Proof.
  intros r c marks pts kp H. unfold kelvin_points, forM_up in H.
  assert (G : forall k a l l', forM_from k a (fun i l => b <- get marks i ;; (if b : bool then Ok l else v <- get l i ;; w <- kelvin_point o r c v ;; set l i w)) l = Ok l' ->
    length l' = length l /\ forall i p, nth_error l i = Some p -> exists q, nth_error l' i = Some q /\
      (i < a \/ a + k <= i -> q = p) /\ (a <= i < a + k -> nth_error marks i = Some true -> q = p) /\ (a <= i < a + k -> nth_error marks i = Some false -> kelvin_point o r c p = Ok q)).
  { intros k. induction k as [|k IH]; intros a l l' E; cbn [forM_from] in E.
    - injection E as <-. split; auto. intros i p Hp. exists p. split; auto. split; auto. split; intros X; lia.
    - unfold get in E at 1. destruct (nth_error marks a) as [[|]|] eqn:EM; cbn [bind] in E; [| |discriminate E].
      + apply IH in E as [L E]. split; auto. intros i p Hp. destruct (E i p Hp) as [q [Q1 [Q2 [Q3 Q4]]]]. exists q. split; auto.
        split; [intros X; apply Q2; lia|]. split; intros X Y.
        * destruct (Nat.eq_dec i a) as [->|N]; [apply Q2; lia|]. apply Q3; auto. lia.
        * destruct (Nat.eq_dec i a) as [->|N]; [congruence|]. apply Q4; auto. lia.
      + unfold get in E. destruct (nth_error l a) as [v|] eqn:Ev; cbn [bind] in E; [|discriminate E].
        destruct (kelvin_point o r c v) as [w|s|s|s] eqn:EW; cbn [bind] in E; try discriminate E.
        assert (La : a < length l) by (apply nth_error_Some; congruence). rewrite set_lt in E by auto. cbn [bind] in E. apply IH in E as [L E]. rewrite upd_length in L. split; auto.
        intros i p Hp. destruct (Nat.eq_dec i a) as [->|N].
        * rewrite Ev in Hp. injection Hp as <-. destruct (E a w) as [q [Q1 [Q2 _]]].
          { rewrite (nth_error_nth' _ v) by (rewrite upd_length; auto). rewrite nth_upd by auto. rewrite Nat.eqb_refl. reflexivity. }
          rewrite (Q2 ltac:(lia)) in Q1. exists w. split; auto. split; [intros X; lia|]. split; [congruence|auto].
        * destruct (E i p) as [q [Q1 [Q2 [Q3 Q4]]]].
          { assert (i < length l) by (apply nth_error_Some; congruence). rewrite (nth_error_nth' _ v) by (rewrite upd_length; auto). rewrite nth_upd by auto.
            destruct (Nat.eqb_spec i a); [contradiction|]. rewrite (nth_error_nth' _ v) in Hp by auto. auto. }
          exists q. split; auto. split; [intros X; apply Q2; lia|]. split; intros X Y; [apply Q3|apply Q4]; auto; lia. }
  apply G in H as [L H]. split; auto. intros i p Hp. destruct (H i p Hp) as [q [Q1 [_ [Q3 Q4]]]].
  assert (i < length pts) by (apply nth_error_Some; congruence). exists q. split; auto. split; intros Y; [apply Q3|apply Q4]; auto; lia.
Qed.
End Image.

Local Open Scope R_scope.
Section ImageR.
Context {A : Type}.
Lemma glue_R : forall peq dp (m k m' : mesh ROps A), addKelvin ROps A peq dp m k = Ok m' -> (length (m_points k) <= length (m_marks k))%nat ->
  exists xs ts id p, m_points m' = m_points m ++ xs /\ m_tris m' = m_tris m ++ ts /\ m_attrs m' = m_attrs m ++ repeat id (length ts) /\ m_marks m' = m_marks m /\
    nth_error (region_map (m_drawing m')) id = Some p /\ (peq p dp = true \/ p = dp) /\
    length xs = length (filter negb (firstn (length (m_points k)) (m_marks k))) /\
    Forall2 (fun t t' => tri_in (length (m_points m')) t' /\ image (m_radius m) k (t0 t) (pos m' (t0 t')) /\ image (m_radius m) k (t1 t) (pos m' (t1 t')) /\ image (m_radius m) k (t2 t) (pos m' (t2 t'))) (m_tris k) ts.
Proof.
  intros peq dp m k m' H LK. destruct (kelvin_glue ROps peq dp m k m' H LK) as [kp [xs [ts [id [EK [Lkp G]]]]]].
  destruct G as [G1 [G2 [G3 [G4 [_ [_ [_ [_ [[p [G5 G6]] [G7 [f [GO [_ [_ F]]]]]]]]]]]]]].
  exists xs, ts, id, p. repeat (split; [solve [auto]|]). rewrite Lkp in G7. split; auto.
  destruct (kelvin_points_spec ROps _ _ _ _ _ EK) as [_ KS].
  assert (STEP : forall v w, f v w -> (w < length (m_points m'))%nat /\ image (m_radius m) k v (pos m' w)).
  { intros v w Hf. destruct (GO v w Hf) as [a [b [Ea [Eb C]]]]. split; [apply nth_error_Some; congruence|].
    assert (Lv : (v < length (m_points k))%nat) by (rewrite <- Lkp; apply nth_error_Some; congruence).
    destruct (KS v (pos k v)) as [q [Q1 [Q2 Q3]]]; [unfold pos; apply nth_error_nth'; auto|].
    change (vec ROps) with pt in *. rewrite Ea in Q1. injection Q1 as <-.
    assert (PW : pos m' w = b) by (unfold pos; apply nth_error_nth; auto).
    assert (AB : b = a).
    { destruct C as [[_ [_ [_ C]]]|[_ [_ C]]]; auto. unfold same_pos in C. apply andb_true_iff in C as [C1 C2]. cbn [eqb ROps] in C1, C2. apply Reqb_true in C1. apply Reqb_true in C2. apply pt_ext; auto. }
    unfold image. rewrite PW, AB. auto. }
  clear - F STEP. induction F as [|t t' l l' [F0 [F1 F2]] F IH]; constructor; auto.
  destruct (STEP _ _ F0), (STEP _ _ F1), (STEP _ _ F2). unfold tri_in. auto 10.
Qed.
Lemma kelvin_point_total : forall r v, v <> org -> exists w, kelvin_point ROps r org v = Ok w.
Proof.
  intros r v N. rewrite kelvin_point_R. pose proof (sq_org v N). pose proof (org_pos v N). destruct (Req_EM_T _ 0); [contradiction|].
  destruct (Rlt_dec _ _); [destruct (Req_EM_T _ 0); [lra|]|]; eexists; reflexivity.
Qed.
Lemma same_pos_R : forall p q : pt, same_pos ROps p q = true <-> p = q.
Proof.
  intros p q. unfold same_pos. rewrite andb_true_iff. cbn [eqb ROps]. rewrite !Reqb_true. split; [intros [H1 H2]; apply pt_ext; symmetry; auto|intros ->; auto].
Qed.
Lemma glue_iff : forall peq dp (m k : mesh ROps A), (length (m_points k) <= length (m_marks k))%nat -> (length (m_points m) <= length (m_marks m))%nat ->
  Forall (tri_in (length (m_points k))) (m_tris k) -> (forall v, nth_error (m_marks k) v = Some false -> (v < length (m_points k))%nat -> pos k v <> org) ->
  let ok := forall t v, In t (m_tris k) -> In v (corners t) -> nth_error (m_marks k) v = Some true -> exists w, nth_error (m_points m) w = Some (pos k v) /\ nth_error (m_marks m) w = Some true in
  (ok -> exists m', addKelvin ROps A peq dp m k = Ok m') /\ ((exists m', addKelvin ROps A peq dp m k = Ok m') -> ok) /\
  ((exists t v, In t (m_tris k) /\ In v (corners t) /\ nth_error (m_marks k) v = Some true /\ forall w, nth_error (m_points m) w = Some (pos k v) -> nth_error (m_marks m) w <> Some true) ->
    is_ub (addKelvin ROps A peq dp m k)).
Proof.
  intros peq dp m k LK LM HT HO ok.
  assert (KO : exists kp, kelvin_points ROps (m_radius m) (vzero ROps) (m_marks k) (m_points k) = Ok kp).
  { destruct (kelvin_loop (m_radius m) org (m_marks k) (m_points k) (length (m_points k)) 0 (m_points k)) as [l' [E _]]; auto.
    - intros i [_ Hi] Mi. apply kelvin_point_total. apply HO; auto. rewrite (nth_error_nth' _ false) by lia. rewrite Mi. reflexivity.
    - exists l'. exact E. }
  destruct KO as [kp EK]. destruct (kelvin_points_spec ROps _ _ _ _ _ EK) as [Lkp SP].
  assert (KV : forall v p, nth_error kp v = Some p -> nth_error (m_marks k) v = Some true -> p = pos k v).
  { intros v p Hp Mv. assert (Hv : (v < length (m_points k))%nat) by (rewrite <- Lkp; apply nth_error_Some; congruence).
    destruct (SP v (pos k v)) as [q [Q1 [Q2 _]]]; [apply nth_error_nth'; auto|]. rewrite Hp in Q1. injection Q1 as <-. auto. }
  assert (RNG : forall t v, In t (m_tris k) -> In v (corners t) -> (v < length (m_points k))%nat).
  { intros t v Ht Hv. rewrite Forall_forall in HT. destruct (HT t Ht) as [T0 [T1 T2]]. unfold corners in Hv; cbn [In] in Hv; destruct Hv as [<-|[<-|[<-|[]]]]; auto. }
  destruct (kelvin_outcome ROps peq dp m k kp EK Lkp LK LM HT) as [H1 [H2 H3]]. split; [|split].
  - intros HOK. apply H1. intros t v p Ht Hv Hp Mv. destruct (HOK t v Ht Hv Mv) as [w [W1 W2]]. exists w, (pos k v). split; auto. split; auto. apply same_pos_R. apply KV; auto.
  - intros [m' E] t v Ht Hv Mv. pose proof (RNG t v Ht Hv) as Lv. rewrite <- Lkp in Lv.
    pose proof (nth_error_nth' kp org Lv) as E1. set (p := nth v kp org) in E1.
    assert (PD : (exists w, nth_error (m_points m) w = Some p /\ nth_error (m_marks m) w = Some true) \/ ~ exists w, nth_error (m_points m) w = Some p /\ nth_error (m_marks m) w = Some true).
    { clear. generalize (m_marks m) as mk. generalize (m_points m) as l. induction l as [|q l IH]; intros mk; [right; intros [[|w] [W _]]; discriminate W|].
      destruct mk as [|b mk]; [right; intros [[|w] [_ W]]; discriminate W|]. destruct (IH mk) as [[w W]|N]; [left; exists (S w); auto|].
      destruct (same_pos ROps p q) eqn:Q; [apply same_pos_R in Q; subst q; destruct b; [left; exists O; auto|]|].
      - right. intros [[|w] [W1 W2]]; [discriminate W2|]. apply N. exists w. auto.
      - right. intros [[|w] [W1 W2]]; [injection W1 as ->; assert (X : same_pos ROps p p = true) by (apply same_pos_R; auto); congruence|]. apply N. exists w. auto. }
    destruct PD as [X|X].
    + destruct X as [w [W1 W2]]. exists w. rewrite <- (KV v p E1 Mv). auto.
    + exfalso. assert (U : is_ub (addKelvin ROps A peq dp m k)); [|destruct U as [s U]; rewrite E in U; discriminate U].
      apply H3. exists t, v, p. repeat (split; [solve [auto]|]). intros w q W1 W2. destruct (same_pos ROps p q) eqn:Q; auto. apply same_pos_R in Q. subst q. exfalso. apply X. eauto.
  - intros [t [v [Ht [Hv [Mv HN]]]]]. apply H3. pose proof (RNG t v Ht Hv) as Lv. rewrite <- Lkp in Lv. exists t, v, (nth v kp org).
    pose proof (nth_error_nth' kp org Lv) as E1. repeat (split; [solve [auto]|]). intros w q W1 W2. destruct (same_pos ROps _ q) eqn:Q; auto. apply same_pos_R in Q. subst q.
    exfalso. apply (HN w); auto. rewrite <- (KV v _ E1 Mv). auto.
Qed.
End ImageR.
