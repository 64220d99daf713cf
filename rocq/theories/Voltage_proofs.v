(** setVoltage: the closest node, and what a sequence of Dirichlet conditions means when nodes repeat. *)
From Coq Require Import String.
From Coq Require Import List Arith ZArith NArith Bool Lia Reals Lra.
From Verif Require Import Base SumR AlgebraModel AlgebraSpec Coo_proofs Csr_proofs System_proofs Algebra_bridge GeometryModel GeometrySpec Geometry_proofs DrawingModel DrawingSpec
  MeshModel MeshSpec Fem_proofs Energy_proofs LayersModel LayersSpec.
Import ListNotations.
Local Open Scope R_scope.

(** ** The search *)
Section Nearest.
Variable dst : pt -> res R.
Variable f : pt -> R.
Hypothesis Hf : forall q, dst q = Ok (f q).
Lemma nearest_some : forall (pts : list pt) i k (dk : R), exists k' d', nearest ROps finite_R dst pts i (Some (k, dk)) = Ok (Some (k', d')) /\
  ((k' = k /\ d' = dk /\ forall j, (j < length pts)%nat -> dk <= f (nth j pts org)) \/
   (exists j, (j < length pts)%nat /\ k' = (i + j)%nat /\ d' = f (nth j pts org) /\ d' < dk /\
      (forall j', (j' < length pts)%nat -> d' <= f (nth j' pts org)) /\ forall j', (j' < j)%nat -> d' < f (nth j' pts org))).
Proof.
  induction pts as [|q pts IH]; intros i k dk; cbn [nearest].
  - exists k, dk. split; auto. left. split; auto. split; auto. cbn. lia.
  - rewrite Hf. cbn [bind]. change (ltb ROps (f q) dk) with (Rltb (f q) dk). destruct (Rltb (f q) dk) eqn:E.
    + apply Rltb_true in E. destruct (IH (S i) i (f q)) as [k' [d' [H1 H2]]]. exists k', d'. split; [exact H1|]. right. destruct H2 as [[-> [-> H2]]|[j [Hj [-> [-> [H3 [H4 H5]]]]]]].
      * exists O. cbn [length nth]. split; [lia|]. split; [lia|]. split; auto. split; auto. split; [|intros; lia].
        intros [|j'] Hj'; cbn [nth]; [lra|]. apply H2. lia.
      * exists (S j). cbn [length nth]. split; [lia|]. split; [lia|]. split; auto. split; [lra|]. split.
        { intros [|j'] Hj'; cbn [nth]; [lra|]. apply H4. lia. }
        { intros [|j'] Hj'; cbn [nth]; [lra|]. apply H5. lia. }
    + apply Rltb_false in E. destruct (IH (S i) k dk) as [k' [d' [H1 H2]]]. exists k', d'. split; [exact H1|]. destruct H2 as [[-> [-> H2]]|[j [Hj [-> [-> [H3 [H4 H5]]]]]]].
      * left. split; auto. split; auto. cbn [length]. intros [|j'] Hj'; cbn [nth]; [lra|]. apply H2. lia.
      * right. exists (S j). cbn [length nth]. split; [lia|]. split; [lia|]. split; auto. split; auto. split.
        { intros [|j'] Hj'; cbn [nth]; [lra|]. apply H4. lia. }
        { intros [|j'] Hj'; cbn [nth]; [lra|]. apply H5. lia. }
Qed.
Lemma nearest_first : forall pts : list pt, pts <> [] -> exists k, nearest ROps finite_R dst pts 0 None = Ok (Some (k, f (nth k pts org))) /\ (k < length pts)%nat /\
  (forall j, (j < length pts)%nat -> f (nth k pts org) <= f (nth j pts org)) /\ (forall j, (j < k)%nat -> f (nth k pts org) < f (nth j pts org)).
Proof.
  intros [|q pts] H; [congruence|]. cbn [nearest]. rewrite Hf. cbn [bind finite_R].
  destruct (nearest_some pts 1 0 (f q)) as [k' [d' [H1 H2]]]. destruct H2 as [[-> [-> H2]]|[j [Hj [-> [-> [H3 [H4 H5]]]]]]].
  - exists O. cbn [length nth]. split; [exact H1|]. split; [lia|]. split; [|intros; lia].
    intros [|j'] Hj'; cbn [nth]; [lra|]. apply H2. lia.
  - exists (S j). cbn [length nth]. split; [exact H1|]. split; [lia|]. split.
    { intros [|j'] Hj'; cbn [nth]; [lra|]. apply H4. lia. }
    { intros [|j'] Hj'; cbn [nth]; [lra|]. apply H5. lia. }
Qed.
End Nearest.

Lemma sq_dist_R : forall p q : pt, sq_dist ROps p q = dist p q * dist p q.
Proof. intros p q. rewrite dist_sq. unfold sq_dist. cbn. unfold px, py. ring. Qed.
Lemma sq_le : forall a b : R, 0 <= a -> 0 <= b -> a * a <= b * b -> a <= b.
Proof. intros a b Ha Hb H. destruct (Rle_lt_dec a b); auto. assert (b * b < a * a) by (apply Rmult_le_0_lt_compat; lra). lra. Qed.
Lemma sq_lt : forall a b : R, 0 <= a -> 0 <= b -> a * a < b * b -> a < b.
Proof. intros a b Ha Hb H. destruct (Rlt_le_dec a b); auto. assert (b * b <= a * a) by (apply Rmult_le_compat; lra). lra. Qed.
Lemma closest_sq : forall (pts : list pt) p, pts <> [] -> exists i d, nearest ROps finite_R (fun q => Ok (sq_dist ROps p q)) pts 0 None = Ok (Some (i, d)) /\ closest pts p i.
Proof.
  intros pts p H. destruct (nearest_first (fun q => Ok (sq_dist ROps p q)) (fun q => sq_dist ROps p q) (fun q => eq_refl) pts H) as [i [E [H1 [H2 H3]]]].
  exists i. eexists. split; [exact E|]. split; auto. split; intros j Hj.
  - apply sq_le; try apply dist_nonneg. rewrite <- !sq_dist_R. auto.
  - apply sq_lt; try apply dist_nonneg. rewrite <- !sq_dist_R. auto.
Qed.
Lemma norm_minus : forall p q : pt, GeometryModel.norm ROps (vminus ROps q p) = Ok (dist p q).
Proof. intros p q. rewrite norm_R. f_equal. unfold dist, vminus, P, px, py. cbn. f_equal. ring. Qed.
Lemma closest_norm : forall A (m : mesh ROps A) p, m_points m <> [] -> exists i, link_node ROps A finite_R m p = Ok i /\ closest (m_points m) p i.
Proof.
  intros A m p H. unfold link_node. destruct (nearest_first (fun q => GeometryModel.norm ROps (vminus ROps q p)) (fun q => dist p q) (norm_minus p) (m_points m) H) as [i [E [H1 [H2 H3]]]].
  exists i. rewrite E. cbn [bind]. split; auto. split; auto.
Qed.
Lemma closest_unique : forall pts p i j, closest pts p i -> closest pts p j -> i = j.
Proof.
  intros pts p i j [Hi [Li Fi]] [Hj [Lj Fj]]. destruct (lt_eq_lt_dec i j) as [[H|H]|H]; auto.
  - specialize (Fj i H). specialize (Li j Hj). lra.
  - specialize (Fi j H). specialize (Lj i Hi). lra.
Qed.

(** ** Dirichlet conditions with repeated nodes *)
Definition put (x : nat -> R) (id : nat) (v : R) : nat -> R := fun j => if Nat.eqb j id then v else x j.
Lemma dirichlet_rows : forall (S S' : rsys) (id : nat) (v : R), valid_system S -> (id < sdim S)%nat -> dDirichlet ROps S id v = Ok S' ->
  forall x, (row_eq S' x id <-> x id = v) /\ forall i, (i < sdim S)%nat -> i <> id -> (row_eq S' x i <-> row_eq S (put x id v) i).
Proof.
  intros S S' id v W Hid E x. apply valid_wf in W. destruct (dDirichlet_ok S id v W Hid) as [S'' [E' [W' [L [EN B]]]]]. rewrite E in E'; inversion E'; subst S''.
  unfold row_eq. rewrite L. fsent. split.
  - rewrite B, Nat.eqb_refl by auto. rewrite (sumn_single (sdim S) id); auto.
    + rewrite EN, !Nat.eqb_refl by auto. rewrite Rmult_1_l. tauto.
    + intros j Hj Nj. rewrite EN, Nat.eqb_refl by auto. destruct (Nat.eqb_spec j id); [congruence|]. ring.
  - intros i Hi Ni. rewrite B by auto. destruct (Nat.eqb_spec i id); [congruence|].
    assert (K : sumn (sdim S) (fun j => sent S' i j * x j) = sumn (sdim S) (fun j => sent S i j * put x id v j) - sent S i id * v).
    { rewrite <- (sumn_delta (sdim S) id (fun j => sent S i j * v)) by auto. rewrite <- sumn_minus. apply sumn_ext. intros j Hj.
      rewrite EN by auto. unfold put. destruct (Nat.eqb_spec i id); [congruence|]. destruct (Nat.eqb_spec j id); ring. }
    rewrite K. lra.
Qed.
Lemma first_value_cons : forall id v l i, first_value ((id, v) :: l) i = if Nat.eqb id i then Some v else first_value l i.
Proof. intros. unfold first_value. cbn [find fst]. destruct (Nat.eqb id i); reflexivity. Qed.
Lemma find_app_ : forall X (f : X -> bool) l1 l2, find f (l1 ++ l2) = match find f l1 with Some x => Some x | None => find f l2 end.
Proof. intros X f l1 l2. induction l1 as [|x l1 IH]; cbn [app find]; auto. destruct (f x); auto. Qed.
Lemma last_value_cons : forall id v l i, last_value ((id, v) :: l) i = match last_value l i with Some w => Some w | None => if Nat.eqb id i then Some v else None end.
Proof.
  intros. unfold last_value, first_value. cbn [rev]. rewrite find_app_. destruct (find _ (rev l)); auto. cbn [find fst]. destruct (Nat.eqb id i); reflexivity.
Qed.
Lemma first_last_none : forall l i, first_value l i = None <-> last_value l i = None.
Proof.
  induction l as [|[id v] l IH]; intros i; [tauto|]. rewrite first_value_cons, last_value_cons. destruct (IH i) as [A B].
  destruct (Nat.eqb id i); destruct (last_value l i); split; intros H; try discriminate; auto.
Qed.
Lemma first_value_none : forall l i, first_value l i = None <-> ~ In i (map fst l).
Proof.
  induction l as [|[id v] l IH]; intros i; [cbn; tauto|]. rewrite first_value_cons. cbn [map fst In]. destruct (Nat.eqb_spec id i); split; intros H; try discriminate; try tauto.
  - apply IH in H. tauto.
  - apply IH. tauto.
Qed.
Lemma row_eq_ext : forall (S : rsys) x y i, (forall j, (j < sdim S)%nat -> x j = y j) -> row_eq S x i <-> row_eq S y i.
Proof. intros S x y i H. unfold row_eq. rewrite (sumn_ext (sdim S) (fun j => value 0 (sA R S) i j * x j) (fun j => value 0 (sA R S) i j * y j)); [tauto|]. intros j Hj. rewrite H by auto. reflexivity. Qed.

Lemma dirichlet_rows_all : forall l (S : rsys), valid_system S -> (forall p, In p l -> (fst p < sdim S)%nat) ->
  exists S', dirichlet_all S l = Ok S' /\ valid_system S' /\ sdim S' = sdim S /\
    forall x, (forall i, (i < sdim S)%nat -> (row_eq S' x i <-> match last_value l i with Some v => x i = v | None => row_eq S (imposed l x) i end)).
Proof.
  induction l as [|[id v] l IH]; intros S W HI; cbn [dirichlet_all].
  - exists S. split; auto. split; auto. split; auto. intros x i Hi. cbn. tauto.
  - assert (Hid : (id < sdim S)%nat) by (apply (HI (id, v)); cbn; auto).
    destruct (dirichlet_solutions_v S id v W Hid) as [S1 [E1 [W1 [L1 _]]]]. rewrite E1. cbn [bind].
    destruct (IH S1 W1) as [S' [E [W' [L' Rw]]]]; [intros p Hp; rewrite L1; apply HI; cbn; auto|].
    exists S'. split; auto. split; auto. split; [congruence|]. intros x i Hi. rewrite (Rw x i) by (rewrite L1; auto). rewrite last_value_cons.
    destruct (last_value l i) as [w|] eqn:EL; [tauto|].
    destruct (dirichlet_rows S S1 id v W Hid E1 (imposed l x)) as [R1 R2]. destruct (Nat.eqb_spec id i) as [->|N].
    + rewrite R1. unfold imposed. apply first_last_none in EL. rewrite EL. tauto.
    + rewrite R2 by auto. apply row_eq_ext. intros j Hj. unfold put, imposed. rewrite first_value_cons. rewrite (Nat.eqb_sym id j). destruct (Nat.eqb j id); reflexivity.
Qed.
Lemma dirichlet_repeated : forall (l : list (nat * R)) (S : rsys), valid_system S -> (forall p, In p l -> (fst p < sdim S)%nat) ->
  exists S', dirichlet_all S l = Ok S' /\ valid_system S' /\ sdim S' = sdim S /\
    forall x, solves S' x <-> ((forall i v, last_value l i = Some v -> x i = v) /\
      forall i, (i < sdim S)%nat -> ~ In i (map fst l) -> row_eq S (imposed l x) i).
Proof.
  intros l S W HI. destruct (dirichlet_rows_all l S W HI) as [S' [E [W' [L Rw]]]]. exists S'. split; auto. split; auto. split; auto.
  assert (B : forall i v, last_value l i = Some v -> (i < sdim S)%nat).
  { intros i v H. destruct (in_dec Nat.eq_dec i (map fst l)) as [I|I].
    - apply in_map_iff in I. destruct I as [p [<- I]]. auto.
    - apply first_value_none in I. apply first_last_none in I. congruence. }
  intros x. unfold solves. rewrite L. split.
  - intros H. split.
    + intros i v Hv. pose proof (proj1 (Rw x i (B _ _ Hv)) (H i (B _ _ Hv))) as K. rewrite Hv in K. exact K.
    + intros i Hi N. pose proof (proj1 (Rw x i Hi) (H i Hi)) as K. apply first_value_none in N. apply first_last_none in N. rewrite N in K. exact K.
  - intros [H1 H2] i Hi. apply Rw; auto. destruct (last_value l i) as [v|] eqn:EL; [auto|]. apply H2; auto. apply first_value_none. apply first_last_none. exact EL.
Qed.

(** ** One mesh *)
Lemma setVoltage_ok : forall A (m : mesh ROps A) (S : rsys) p v, m_points m <> [] -> exists i, closest (m_points m) p i /\
  setVoltage ROps A finite_R m S p v = dDirichlet ROps S i v.
Proof.
  intros A m S p v H. destruct (closest_sq (m_points m) p H) as [i [d [E C]]]. exists i. split; auto. unfold setVoltage. rewrite E. reflexivity.
Qed.
Lemma voltages_dirichlet : forall A (m : mesh ROps A) l (S : rsys), m_points m <> [] ->
  exists ids, Forall2 (fun c id => closest (m_points m) (fst c) id) l ids /\ voltages m S l = dirichlet_all S (combine ids (map snd l)).
Proof.
  intros A m l S H. revert S. assert (K : exists ids, Forall2 (fun (c : pt * R) id => closest (m_points m) (fst c) id) l ids).
  { induction l as [|[p v] l [ids IH]]; [exists []; constructor|]. destruct (closest_sq (m_points m) p H) as [i [d [_ C]]]. exists (i :: ids). constructor; auto. }
  destruct K as [ids F]. intros S. exists ids. split; auto. revert S. induction F as [|[p v] id l ids C F IH]; intros S; [reflexivity|].
  cbn [voltages map combine snd dirichlet_all]. destruct (setVoltage_ok A m S p v H) as [i [C' E]]. cbn [fst] in C. rewrite (closest_unique _ _ _ _ C' C) in E. rewrite E.
  destruct (dDirichlet ROps S id v); cbn [bind]; auto.
Qed.
Lemma closest_lt : forall pts p i, closest pts p i -> (i < length pts)%nat.
Proof. intros pts p i [H _]. exact H. Qed.
Lemma F2_combine_in : forall X Y Z (P : X -> Y -> Prop) (l : list X) (ys : list Y) (f : X -> Z) y z, Forall2 P l ys -> In (y, z) (combine ys (map f l)) -> exists x, P x y.
Proof.
  intros X Y Z P l ys f y z F. induction F as [|x y' l ys H F IH]; intros I; [destruct I|]. cbn [map combine] in I. destruct I as [E|I]; [inversion E; subst; eauto|auto].
Qed.
Lemma voltages_ok : forall A (m : mesh ROps A) (S : rsys) (l : list (pt * R)), valid_system S -> sdim S = length (m_points m) -> m_points m <> [] ->
  exists S' ids, voltages m S l = Ok S' /\ valid_system S' /\ sdim S' = sdim S /\ Forall2 (fun c id => closest (m_points m) (fst c) id) l ids /\
    forall x, solves S' x <-> ((forall i v, last_value (combine ids (map snd l)) i = Some v -> x i = v) /\
      forall i, (i < sdim S)%nat -> ~ In i ids -> row_eq S (imposed (combine ids (map snd l)) x) i).
Proof.
  intros A m S l W L H. destruct (voltages_dirichlet A m l S H) as [ids [F E]].
  destruct (dirichlet_repeated (combine ids (map snd l)) S W) as [S' [E' [W' [L' Sol]]]].
  { intros [id v] I. destruct (F2_combine_in _ _ _ _ _ _ _ _ _ F I) as [c C]. cbn [fst]. rewrite L. eapply closest_lt; eauto. }
  exists S', ids. split; [congruence|]. split; auto. split; auto. split; auto.
  assert (M : map fst (combine ids (map snd l)) = ids).
  { clear - F. induction F as [|c id l ids C F IH]; [reflexivity|]. cbn [map combine fst]. rewrite IH. reflexivity. }
  rewrite M in Sol. exact Sol.
Qed.

(** ** Layers *)
Lemma offsets_from_nth : forall sizes off k, (k < length sizes)%nat -> nth_error (offsets_from off sizes) k = Some (off + list_sum (firstn k sizes))%nat.
Proof.
  induction sizes as [|s sizes IH]; intros off k H; [cbn in H; lia|]. destruct k as [|k]; cbn [offsets_from nth_error firstn].
  - cbn. f_equal. lia.
  - rewrite IH by (cbn in H; lia). f_equal. unfold list_sum. cbn [fold_right]. lia.
Qed.
Lemma offsets_nth : forall A (ms : list (mesh ROps A)) k, (k < length ms)%nat -> nth_error (offsets (map (fun m => length (m_points m)) ms)) k = Some (before ms k).
Proof.
  intros A ms k H. unfold offsets. rewrite offsets_from_nth by (rewrite map_length; auto). rewrite firstn_map. reflexivity.
Qed.
Lemma before_lt : forall A (ms : list (mesh ROps A)) k m i, nth_error ms k = Some m -> (i < length (m_points m))%nat -> (before ms k + i < nodes ms)%nat.
Proof.
  intros A ms. induction ms as [|m0 ms IH]; intros k m i H Hi; [destruct k; discriminate H|]. destruct k as [|k]; cbn [nth_error] in H.
  - inversion H; subst. unfold before, nodes. cbn [firstn map list_sum fold_right]. lia.
  - specialize (IH _ _ _ H Hi). unfold before, nodes in *. cbn [firstn map]. unfold list_sum in *. cbn [fold_right]. lia.
Qed.
Lemma nth_error_lt : forall X (l : list X) k x, nth_error l k = Some x -> (k < length l)%nat.
Proof. intros X l k x H. apply nth_error_Some. congruence. Qed.
Lemma get_nth_error : forall X (l : list X) k x, nth_error l k = Some x -> get l k = Ok x.
Proof. intros X l k x H. unfold get. rewrite H. reflexivity. Qed.
Lemma ml_setVoltage_ok : forall A (ms : list (mesh ROps A)) (S : rsys) p v k m, nth_error ms k = Some m -> m_points m <> [] -> exists u, addresses ms p k u /\
  ml_setVoltage ROps A finite_R ms S p v k = dDirichlet ROps S u v.
Proof.
  intros A ms S p v k m Hk H. destruct (closest_sq (m_points m) p H) as [i [d [E C]]]. exists (before ms k + i)%nat. split; [exists m, i; auto|].
  unfold ml_setVoltage. rewrite (get_nth_error _ _ _ _ Hk). cbn [bind]. rewrite E. cbn [bind].
  rewrite (get_nth_error _ _ _ _ (offsets_nth A ms k (nth_error_lt _ _ _ _ Hk))). cbn [bind]. rewrite Nat.add_comm. reflexivity.
Qed.
Lemma addresses_unique : forall A (ms : list (mesh ROps A)) p k u u', addresses ms p k u -> addresses ms p k u' -> u = u'.
Proof.
  intros A ms p k u u' [m [i [H1 [H2 ->]]]] [m' [i' [H1' [H2' ->]]]]. rewrite H1 in H1'. inversion H1'; subst m'. rewrite (closest_unique _ _ _ _ H2 H2'). reflexivity.
Qed.
Lemma addresses_lt : forall A (ms : list (mesh ROps A)) p k u, addresses ms p k u -> (u < nodes ms)%nat.
Proof. intros A ms p k u [m [i [H1 [H2 ->]]]]. eapply before_lt; eauto. eapply closest_lt; eauto. Qed.
Lemma ml_voltages_ok : forall A (ms : list (mesh ROps A)) (S : rsys) (l : list (pt * R * nat)), valid_system S -> sdim S = nodes ms ->
  Forall (fun c => exists m, nth_error ms (snd c) = Some m /\ m_points m <> []) l ->
  exists S' us, ml_voltages ms S l = Ok S' /\ valid_system S' /\ sdim S' = sdim S /\ Forall2 (fun c u => addresses ms (fst (fst c)) (snd c) u) l us /\
    forall x, solves S' x <-> ((forall i v, last_value (combine us (map (fun c => snd (fst c)) l)) i = Some v -> x i = v) /\
      forall i, (i < sdim S)%nat -> ~ In i us -> row_eq S (imposed (combine us (map (fun c => snd (fst c)) l)) x) i).
Proof.
  intros A ms S l W L H.
  assert (K : exists us, Forall2 (fun (c : pt * R * nat) u => addresses ms (fst (fst c)) (snd c) u) l us /\
     forall S0, ml_voltages ms S0 l = dirichlet_all S0 (combine us (map (fun c => snd (fst c)) l))).
  { clear - H. induction H as [|[[p v] k] l [m [Hk Hm]] H [us [F IH]]]; [exists []; split; [constructor|reflexivity]|]. cbn [snd] in Hk.
    destruct (ml_setVoltage_ok A ms (mkSys R (mkCoo [] 0) []) p v k m Hk Hm) as [u [Ad _]].
    exists (u :: us). split; [constructor; auto|]. intros S0. cbn [ml_voltages map combine fst snd dirichlet_all].
    destruct (ml_setVoltage_ok A ms S0 p v k m Hk Hm) as [u' [Ad' E]]. rewrite (addresses_unique _ _ _ _ _ _ Ad' Ad) in E. rewrite E.
    destruct (dDirichlet ROps S0 u v); cbn [bind]; auto. }
  destruct K as [us [F E]]. specialize (E S).
  destruct (dirichlet_repeated (combine us (map (fun c => snd (fst c)) l)) S W) as [S' [E' [W' [L' Sol]]]].
  { intros [u v] I. destruct (F2_combine_in _ _ _ _ _ _ _ _ _ F I) as [c C]. cbn [fst]. rewrite L. eapply addresses_lt; eauto. }
  exists S', us. split; [congruence|]. split; auto. split; auto. split; auto.
  assert (M : map fst (combine us (map (fun c : pt * R * nat => snd (fst c)) l)) = us).
  { clear - F. induction F as [|c id l ids C F IH]; [reflexivity|]. cbn [map combine fst]. rewrite IH. reflexivity. }
  rewrite M in Sol. exact Sol.
Qed.
