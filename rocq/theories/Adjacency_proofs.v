(** The adjacency tables and the memory safety of the assembly functions, for every scalar type. *)
From Coq Require Import String.
From Coq Require Import List Arith ZArith NArith Bool Lia Permutation.
From Verif Require Import Base AlgebraModel AlgebraSpec Coo_proofs Csr_proofs GeometryModel DrawingModel DrawingSpec SolversSpec Drawing_proofs MeshModel MeshSpec.
Import ListNotations.

(** anything but undefined behaviour *)
Definition nub {X} (P : X -> Prop) (r : res X) : Prop := match r with Ok a => P a | UB _ => False | _ => True end.
Lemma nub_bind : forall X Y (P : X -> Prop) (Q : Y -> Prop) x f, nub P x -> (forall a, P a -> nub Q (f a)) -> nub Q (bind x f).
Proof. intros X Y P Q [a|s|s|s] f H K; cbn in *; auto. Qed.
Lemma nub_weaken : forall X (P Q : X -> Prop) x, nub P x -> (forall a, P a -> Q a) -> nub Q x.
Proof. intros X P Q [a|s|s|s] H K; cbn in *; auto. Qed.
Lemma nub_not : forall X (P : X -> Prop) r, nub P r -> ~ is_ub r.
Proof. intros X P r H [s E]. rewrite E in H. exact H. Qed.
Lemma nub_of : forall X (r : res X), ~ is_ub r -> nub (fun _ => True) r.
Proof. intros X [a|s|s|s] H; cbn; auto. apply H. exists s; auto. Qed.
Lemma nub_get : forall X (l : list X) i, i < length l -> nub (fun x => nth_error l i = Some x) (get l i).
Proof. intros X l i H. unfold get. destruct (nth_error l i) eqn:E; cbn; auto. apply nth_error_None in E. lia. Qed.
Lemma nub_set : forall X (l : list X) i a, i < length l -> nub (fun l' => length l' = length l) (set l i a).
Proof. intros X l i a H. rewrite set_lt by auto. cbn. apply upd_length. Qed.
Lemma nub_list : forall X S (P : S -> Prop) (l : list X) body s, P s -> (forall x s, In x l -> P s -> nub P (body x s)) -> nub P (forM_list l body s).
Proof.
  intros X S P l body. induction l as [|x l IH]; intros s H K; cbn; auto.
  eapply nub_bind; [apply K; cbn; auto|]. intros s' H'. apply IH; auto. intros; apply K; cbn; auto.
Qed.
Lemma nub_from : forall S (P : S -> Prop) body n a s, P s -> (forall i s, a <= i < a + n -> P s -> nub P (body i s)) -> nub P (forM_from n a body s).
Proof.
  intros S P body n. induction n as [|n IH]; intros a s H K; cbn; auto.
  eapply nub_bind; [apply K; [lia|auto]|]. intros s' H'. apply IH; auto. intros; apply K; auto; lia.
Qed.
Lemma nub_up : forall S (P : S -> Prop) body n s, P s -> (forall i s, i < n -> P s -> nub P (body i s)) -> nub P (forM_up n body s).
Proof. intros. apply nub_from; auto. intros; apply H0; auto; lia. Qed.

(** ** rows of a table *)
Definition trow {X} (tb : table X) (v : nat) : list X := nth v tb [].
Lemma trow_upd : forall X (tb : table X) v r w, v < length tb -> trow (upd tb v r) w = if Nat.eqb v w then r else trow tb w.
Proof.
  intros X tb v r w H. unfold trow. revert v w H. induction tb as [|x tb IH]; intros [|v] [|w] H; cbn in *; try lia; auto.
  apply IH. lia.
Qed.
Lemma get_row : forall X (tb : table X) v, v < length tb -> get tb v = Ok (trow tb v).
Proof. intros X tb v H. rewrite (get_lt _ tb v []) by auto. reflexivity. Qed.

Definition count (v : nat) (vs : list nat) : nat := length (filter (Nat.eqb v) vs).
Lemma count_cons : forall v w vs, count v (w :: vs) = (if Nat.eqb w v then 1 else 0) + count v vs.
Proof. intros v w vs. unfold count. cbn. rewrite Nat.eqb_sym. destruct (Nat.eqb w v); reflexivity. Qed.
Lemma degree_cons : forall t l v, degree (t :: l) v = count v (corners t) + degree l v.
Proof. intros. unfold degree, count. cbn [map concat]. rewrite filter_app, app_length. reflexivity. Qed.

Section Gen.
Variable o : Ops.
Variable A : Type.
Implicit Types m : mesh o A.

Definition push_one m (i : nat) (v : nat) (tb : table (nat * A)) : res (table (nat * A)) :=
  r <- get tb v ;;
  if Nat.leb 18 (length r) then UB "adjacency array out of bounds"
  else
    a <- get (m_attrs m) i ;;
    p <- getRegionPtrFromId o A (m_drawing m) a ;;
    push 18 tb v (i, p).

Lemma region_ptr : forall (d : drawing o A) a, match nth_error (region_map d) a with
  | Some p => getRegionPtrFromId o A d a = Ok p | None => getRegionPtrFromId o A d a = Throw "Error: region id not found" end.
Proof.
  intros d a. unfold getRegionPtrFromId, get. destruct (nth_error (region_map d) a) eqn:E.
  - assert (H : a < length (region_map d)) by (apply nth_error_Some; congruence).
    destruct (Nat.leb_spec (length (region_map d)) a); [lia|reflexivity].
  - apply nth_error_None in E. destruct (Nat.leb_spec (length (region_map d)) a); [reflexivity|lia].
Qed.

Lemma push_one_spec : forall m i v tb a, v < length tb -> nth_error (m_attrs m) i = Some a ->
  push_one m i v tb = if Nat.leb 18 (length (trow tb v)) then UB "adjacency array out of bounds"
                      else match nth_error (region_map (m_drawing m)) a with
                           | Some p => Ok (upd tb v (trow tb v ++ [(i, p)]))
                           | None => Throw "Error: region id not found"
                           end.
Proof.
  intros m i v tb a H Ha. unfold push_one. rewrite get_row by auto. cbn [bind].
  destruct (Nat.leb_spec 18 (length (trow tb v))); auto.
  unfold get at 1. rewrite Ha. cbn [bind].
  pose proof (region_ptr (m_drawing m) a) as K. destruct (nth_error (region_map (m_drawing m)) a) as [p|].
  - rewrite K. cbn [bind]. unfold push. rewrite get_row by auto. cbn [bind].
    destruct (Nat.leb_spec 18 (length (trow tb v))); [lia|]. rewrite set_lt by auto. reflexivity.
  - rewrite K. reflexivity.
Qed.

Definition row_lengths (tb tb' : table (nat * A)) (c : nat -> nat) : Prop :=
  length tb' = length tb /\ forall v, v < length tb -> length (trow tb' v) = length (trow tb v) + c v.
Definition ids_from (tb tb' : table (nat * A)) (i j : nat) : Prop :=
  forall v e, In e (trow tb' v) -> In e (trow tb v) \/ i <= fst e < j.

Lemma push_corners_out : forall m i a vs tb, Forall (fun v => v < length tb) vs -> nth_error (m_attrs m) i = Some a ->
  (forall v, length (trow tb v) <= 18) ->
  match forM_list vs (push_one m i) tb with
  | Ok tb' => row_lengths tb tb' (fun v => count v vs) /\ ids_from tb tb' i (S i) /\ (forall v, length (trow tb' v) <= 18)
  | UB _ => exists v, 18 < length (trow tb v) + count v vs
  | Throw _ => length (region_map (m_drawing m)) <= a
  | NonFin _ => False
  end.
Proof.
  intros m i a vs. induction vs as [|v vs IH]; intros tb Hv Ha Hc; cbn [forM_list].
  - split; [split; auto; intros; cbn; lia|]. split; auto. intros v e H; auto.
  - inversion Hv as [|? ? H1 H2]; subst. rewrite (push_one_spec m i v tb a) by auto.
    destruct (Nat.leb_spec 18 (length (trow tb v))) as [L|L].
    + cbn [bind]. exists v. rewrite count_cons, Nat.eqb_refl. lia.
    + pose proof (region_ptr (m_drawing m) a) as K. destruct (nth_error (region_map (m_drawing m)) a) as [p|] eqn:E.
      * cbn [bind]. set (tb1 := upd tb v (trow tb v ++ [(i, p)])).
        assert (L1 : length tb1 = length tb) by (apply upd_length).
        assert (R1 : forall w, length (trow tb1 w) = length (trow tb w) + (if Nat.eqb v w then 1 else 0)).
        { intros w. unfold tb1. rewrite trow_upd by auto. destruct (Nat.eqb_spec v w); [subst; rewrite app_length; cbn; lia|lia]. }
        assert (C1 : forall w, length (trow tb1 w) <= 18).
        { intros w. rewrite R1. specialize (Hc w). destruct (Nat.eqb_spec v w); [subst|]; lia. }
        specialize (IH tb1). rewrite L1 in IH. specialize (IH H2 Ha C1).
        destruct (forM_list vs (push_one m i) tb1) as [tb'|s|s|s]; auto.
        -- destruct IH as [[I1 I2] [I3 I4]]. split; [|split; auto].
           ++ split; [lia|]. intros w Hw. rewrite I2 by lia. rewrite R1, count_cons. lia.
           ++ intros w e He. apply I3 in He. destruct He as [He|He]; [|right; lia].
              unfold tb1 in He. rewrite trow_upd in He by auto. destruct (Nat.eqb_spec v w); [|auto].
              subst. apply in_app_or in He. destruct He as [He|[<-|[]]]; auto.
        -- destruct IH as [w Hw]. exists w. rewrite R1 in Hw. rewrite count_cons. lia.
      * cbn [bind]. apply nth_error_None in E. auto.
Qed.

Lemma push_tris_out : forall m l i tb, Forall (tri_in (length tb)) l -> i + length l <= length (m_attrs m) ->
  (forall v, length (trow tb v) <= 18) ->
  match push_tris o A m l i tb with
  | Ok tb' => row_lengths tb tb' (degree l) /\ ids_from tb tb' i (i + length l) /\ (forall v, length (trow tb' v) <= 18)
  | UB _ => exists v, 18 < length (trow tb v) + degree l v
  | Throw _ => ~ known_regions m
  | NonFin _ => False
  end.
Proof.
  intros m l. induction l as [|t l IH]; intros i tb Hl Hi Hc; cbn [push_tris].
  - split; [split; auto; intros; cbn; lia|]. split; auto. intros v e H; auto.
  - inversion Hl as [|? ? H1 H2]; subst. cbn [length] in *.
    destruct (nth_error (m_attrs m) i) as [a|] eqn:Ha; [|apply nth_error_None in Ha; lia].
    pose proof (push_corners_out m i a (corners t) tb) as K.
    change (forM_list (corners t) (push_one m i) tb) with (push_tri o A m i t tb) in K.
    assert (HF : Forall (fun v => v < length tb) (corners t)).
    { destruct H1 as [X [Y Z]]. unfold corners. repeat constructor; auto. }
    specialize (K HF Ha Hc).
    destruct (push_tri o A m i t tb) as [tb1|s|s|s]; cbn [bind]; auto.
    + destruct K as [[K1 K2] [K3 K4]]. specialize (IH (S i) tb1). rewrite K1 in IH.
      specialize (IH H2 ltac:(lia) K4). destruct (push_tris o A m l (S i) tb1) as [tb'|s|s|s]; auto.
      * destruct IH as [[I1 I2] [I3 I4]]. split; [|split; auto].
        -- split; [lia|]. intros v Hv. rewrite I2 by lia. rewrite K2 by auto. rewrite degree_cons. lia.
        -- intros v e He. apply I3 in He. destruct He as [He|He]; [|right; lia].
           apply K3 in He. destruct He; auto. right; lia.
      * destruct IH as [v Hv]. exists v. rewrite degree_cons.
        destruct (Nat.lt_ge_cases v (length tb)) as [L|L]; [rewrite K2 in Hv by auto; lia|].
        unfold trow in *. rewrite nth_overflow in Hv by lia. rewrite nth_overflow by lia. lia.
    + intros Hk. unfold known_regions in Hk. rewrite Forall_forall in Hk. apply nth_error_In in Ha. specialize (Hk _ Ha). lia.
    + destruct K as [v Hv]. exists v. rewrite degree_cons. lia.
Qed.

Lemma trow_empty : forall X n v, trow (repeat (@nil X) n) v = [].
Proof. intros X n. induction n as [|n IH]; intros [|v]; cbn; auto. apply IH. Qed.

Definition in_ids m (tb : table (nat * A)) : Prop := length tb = length (m_points m) /\ forall v e, In e (trow tb v) -> fst e < length (m_tris m).

Lemma adjacency_out : forall m, well_shaped m ->
  match adjacency o A m with
  | Ok tb => in_ids m tb /\ (forall v, v < length (m_points m) -> length (trow tb v) = degree (m_tris m) v) /\ (forall v, length (trow tb v) <= 18)
  | UB _ => exists v, 18 < degree (m_tris m) v
  | Throw _ => ~ known_regions m
  | NonFin _ => False
  end.
Proof.
  intros m [H1 [H2 H3]]. unfold adjacency.
  pose proof (push_tris_out m (m_tris m) 0 (repeat [] (length (m_points m)))) as K.
  rewrite repeat_length in K. specialize (K H1 ltac:(lia)).
  specialize (K ltac:(intros v; rewrite trow_empty; cbn; lia)).
  destruct (push_tris o A m (m_tris m) 0 (repeat [] (length (m_points m)))) as [tb|s|s|s]; auto.
  - destruct K as [[K1 K2] [K3 K4]]. rewrite repeat_length in *. split; [split|split]; auto.
    + intros v e He. apply K3 in He. rewrite trow_empty in He. destruct He as [[]|He]. lia.
    + intros v Hv. rewrite K2 by auto. rewrite trow_empty. reflexivity.
  - destruct K as [v Hv]. exists v. rewrite trow_empty in Hv. exact Hv.
Qed.

Lemma degree_out : forall n ts v, Forall (tri_in n) ts -> 0 < degree ts v -> v < n.
Proof.
  intros n ts v H. induction ts as [|t ts IH]; intros K; [cbn in K; lia|].
  inversion H as [|? ? H1 H2]; subst. rewrite degree_cons in K.
  destruct (Nat.eq_dec (degree ts v) 0) as [E|E]; [|apply IH; auto; lia].
  unfold count, corners in K. cbn in K. destruct H1 as [X [Y Z]].
  destruct (Nat.eqb_spec v (t0 t)); [lia|]. destruct (Nat.eqb_spec v (t1 t)); [lia|]. destruct (Nat.eqb_spec v (t2 t)); [lia|]. cbn in K. lia.
Qed.

(** with known regions the tables overflow exactly when a vertex has more than 18 corners *)
Lemma adjacency_ub : forall m, well_shaped m -> is_ub (adjacency o A m) -> exists v, 18 < degree (m_tris m) v.
Proof. intros m H [s E]. pose proof (adjacency_out m H) as K. rewrite E in K. exact K. Qed.
Lemma adjacency_over : forall m, well_shaped m -> known_regions m -> (exists v, 18 < degree (m_tris m) v) -> is_ub (adjacency o A m).
Proof.
  intros m H Hk [v Hv]. pose proof (adjacency_out m H) as K.
  destruct (adjacency o A m) as [tb|s|s|s]; [|contradiction|eexists; eauto|contradiction].
  destruct K as [_ [K1 K2]]. specialize (K2 v). assert (v < length (m_points m)) by (apply (degree_out _ (m_tris m)); [apply H|lia]).
  rewrite K1 in K2 by auto. lia.
Qed.

Hypothesis tot : scalar_ops_total o.
Lemma nub_div : forall a b, nub (fun _ => True) (div o a b).
Proof. intros. apply nub_of. destruct tot as [H _]. apply H. Qed.
Lemma nub_sqrt : forall a, nub (fun _ => True) (fsqrt o a).
Proof. intros. apply nub_of. destruct tot as [_ H]. apply H. Qed.
Lemma nub_distance : forall p q, nub (fun _ => True) (distance o p q).
Proof. intros. apply nub_sqrt. Qed.

Section Asm.
Variable V : Type.
Variable v0 : V.
Variable put : T o -> nat -> A -> V -> V.
Variable load : T o -> A -> V -> res V.
Variable need : bool.
Hypothesis load_ok : forall D p v, nub (fun _ => True) (load D p v).

Lemma nub_modify : forall (M : coo V) i j f, i <= j -> nub (fun _ => True) (coo_modify v0 M i j f).
Proof.
  intros M i j f H. destruct (coo_modify_spec v0 M i j f) as [[L _]|[_ [A' [E _]]]]; [lia|]. rewrite E. cbn; auto.
Qed.
Lemma nub_double : forall pts a b c, a < length pts -> b < length pts -> c < length pts -> nub (fun _ => True) (getDoubleOrientedArea o pts a b c).
Proof.
  intros pts a b c Ha Hb Hc. unfold getDoubleOrientedArea.
  eapply nub_bind; [apply nub_get; auto|intros]. eapply nub_bind; [apply nub_get; auto|intros]. eapply nub_bind; [apply nub_get; auto|intros]. cbn; auto.
Qed.

Lemma nub_elem : forall m i e S, well_shaped m -> fst e < length (m_tris m) -> i < length (m_points m) -> length (sb V S) = length (m_points m) ->
  nub (fun S' => length (sb V S') = length (m_points m)) (assemble_elem o A V v0 put load m i e S).
Proof.
  intros m i [id p] S [Hs [_ _]] He Hi Hb. unfold assemble_elem. cbn [fst] in He.
  eapply nub_bind; [apply nub_get; auto|]. intros t Ht. apply nth_error_In in Ht.
  rewrite Forall_forall in Hs. specialize (Hs t Ht). destruct Hs as [X [Y Z]].
  eapply nub_bind with (P := fun vw => fst vw < length (m_points m) /\ snd vw < length (m_points m)).
  { unfold other_corners. destruct (Nat.eqb i (t0 t)); [cbn; auto|]. destruct (Nat.eqb i (t1 t)); [cbn; auto|]. destruct (Nat.eqb i (t2 t)); cbn; auto. }
  intros [v2 v3] [H2 H3]. cbn [fst snd] in *.
  eapply nub_bind; [apply nub_double; auto|]. intros a _.
  assert (HW : exists w2 w3, (if ltb o a (zero o) then (v3, v2) else (v2, v3)) = (w2, w3) /\ w2 < length (m_points m) /\ w3 < length (m_points m)).
  { destruct (ltb o a (zero o)); eexists; eexists; eauto. }
  destruct HW as [w2 [w3 [-> [W2 W3]]]].
  eapply nub_bind; [apply nub_double; auto|]. intros D _.
  do 3 (eapply nub_bind; [apply nub_get; auto|]; intros ? _).
  do 7 (eapply nub_bind; [apply nub_div|]; intros ? _).
  assert (HE : forall v f (M : coo V), nub (fun _ => True) (if Nat.leb i v then coo_modify v0 M i v f else Ok M)).
  { intros v f M. destruct (Nat.leb_spec i v); [apply nub_modify; auto|cbn; auto]. }
  do 3 (eapply nub_bind; [apply HE|]; intros ? _).
  eapply nub_bind; [apply nub_get; lia|]. intros bi _.
  eapply nub_bind; [apply load_ok|]. intros bi' _.
  eapply nub_bind; [apply nub_set; lia|]. intros b Hb'. cbn beta in Hb'. cbn. rewrite Hb'. exact Hb.
Qed.

Lemma nub_assemble : forall m, well_shaped m -> (forall v, degree (m_tris m) v <= 18) ->
  nub (fun S' => length (sb V S') = length (m_points m)) (assemble o A V v0 put load need m).
Proof.
  intros m Hs Hd. unfold assemble.
  eapply nub_bind with (P := in_ids m).
  { pose proof (adjacency_out m Hs) as K. destruct (adjacency o A m) as [tb|s|s|s]; cbn; auto.
    - destruct K; auto.
    - destruct K as [v Hv]. specialize (Hd v). lia. }
  intros tb [Hl Hi]. apply nub_up; [cbn; apply repeat_length|].
  intros i S Hlt HS. unfold assemble_vertex. rewrite get_row by lia. cbn [bind].
  destruct (need && Nat.eqb (length (trow tb i)) 0); [cbn; auto|].
  apply nub_list; auto. intros e S' He HS'. apply nub_elem; auto. eapply Hi; eauto.
Qed.
Lemma assemble_over : forall m, well_shaped m -> known_regions m -> (exists v, 18 < degree (m_tris m) v) -> is_ub (assemble o A V v0 put load need m).
Proof. intros m H1 H2 H3. destruct (adjacency_over m H1 H2 H3) as [s E]. unfold assemble. rewrite E. exists s. reflexivity. Qed.
End Asm.

(** ** current density *)
Variable sigma : A -> T o.
Lemma cd_safe : forall m, well_shaped m -> is_ub (cd_getFemSystem o A sigma m) -> exists v, 18 < degree (m_tris m) v.
Proof.
  intros m Hs Hu. destruct (adjacency_ub m Hs) as [v Hv]; [|eauto].
  destruct (adjacency o A m) as [tb|s|s|s] eqn:E; try (exists s; auto; fail).
  - exfalso. pose proof (adjacency_out m Hs) as K. rewrite E in K. destruct K as [_ [K1 K2]].
    revert Hu. eapply nub_not. apply nub_assemble; auto; [intros; cbn; auto|].
    intros v. destruct (Nat.eq_dec (degree (m_tris m) v) 0); [lia|].
    assert (v < length (m_points m)) by (apply (degree_out _ (m_tris m)); [apply Hs|lia]). rewrite <- K1 by auto. apply K2.
  - exfalso. destruct Hu as [s' Hu]. unfold cd_getFemSystem, assemble in Hu. rewrite E in Hu. discriminate.
  - exfalso. destruct Hu as [s' Hu]. unfold cd_getFemSystem, assemble in Hu. rewrite E in Hu. discriminate.
Qed.
Lemma cd_over : forall m, well_shaped m -> known_regions m -> (exists v, 18 < degree (m_tris m) v) -> is_ub (cd_getFemSystem o A sigma m).
Proof. intros. apply assemble_over; auto. Qed.

(** ** magnetostatics *)
Variable curJ : A -> T o.
Variable mag : A -> vec o.

Definition keys_in (n : nat) (mp : list (nat * list (list (vec o)))) : Prop := Forall (fun kl => fst kl < n) mp.
Lemma push_keys : forall n mp id g, keys_in n mp -> id < n -> keys_in n (magmap_push o mp id g).
Proof.
  intros n mp id g H Hi. induction H as [|[k l] mp H1 H2 IH]; cbn [magmap_push]; [constructor; [cbn; auto|constructor]|].
  destruct (Nat.eqb k id); [constructor; auto|]. destruct (Nat.ltb id k); [|constructor; auto].
  constructor; [cbn; auto|]. constructor; auto.
Qed.
Lemma nub_neqb : forall p q, nub (fun _ => True) (vec_neqb o p q).
Proof.
  intros. unfold vec_neqb, vec_eqb. eapply nub_bind with (P := fun _ => True); [|intros; cbn; auto].
  eapply nub_bind; [apply nub_distance|]. intros; cbn; auto.
Qed.
Lemma nub_magpoly : forall rm polys rs mp, Forall (fun r => snd r < length rm) rs -> keys_in (length rm) mp ->
  nub (keys_in (length rm)) (mag_polygons o A mag rm polys rs mp).
Proof.
  intros rm polys rs. induction rs as [|r rs IH]; intros mp H K; cbn [mag_polygons]; [cbn; auto|].
  inversion H as [|? ? H1 H2]; subst.
  eapply nub_bind; [apply nub_get; auto|]. intros v _. eapply nub_bind; [apply nub_neqb|]. intros b _.
  apply IH; auto. destruct b; auto.
  clear - H1 K. revert mp K. induction polys as [|g polys IH]; intros mp K; cbn; auto.
  apply IH. destruct (poly_contains o g (fst r)); auto. apply push_keys; auto.
Qed.
Lemma nub_polyneq : forall a b, nub (fun _ => True) (poly_neqb o a b).
Proof.
  intros a b. unfold poly_neqb. eapply nub_bind with (P := fun _ => True); [|intros; cbn; auto].
  unfold poly_eqb. destruct (negb (Nat.eqb (length a) (length b))); [cbn; auto|].
  revert b. induction a as [|x a IH]; intros [|y b]; cbn [poly_eqb_loop]; try (cbn; auto; fail).
  eapply nub_bind; [apply nub_neqb|]. intros ne _. destruct ne; [cbn; auto|apply IH].
Qed.
Lemma nub_is_magnet : forall g l, nub (fun _ => True) (is_magnet o g l).
Proof.
  intros g l. induction l as [|h l IH]; cbn [is_magnet]; [cbn; auto|].
  eapply nub_bind; [apply nub_polyneq|]. intros ne _. destruct (ne && poly_contains_poly o g h); [cbn; auto|auto].
Qed.
Lemma nub_pick : forall all l acc, nub (fun _ => True) (pick_magnets o all l acc).
Proof.
  intros all l. induction l as [|g l IH]; intros acc; cbn [pick_magnets]; [cbn; auto|].
  eapply nub_bind; [apply nub_is_magnet|]. intros b _. apply IH.
Qed.
Lemma nub_magnets : forall rm mp acc, keys_in (length rm) mp -> nub (fun _ => True) (ms_magnets o A mag rm mp acc).
Proof.
  intros rm mp. induction mp as [|[id l] mp IH]; intros acc H; cbn [ms_magnets]; [cbn; auto|].
  inversion H as [|? ? H1 H2]; subst. cbn [fst] in H1.
  assert (G : forall X (c : X), nub (fun _ => True) (p <- get rm id ;; Ok (mag p))).
  { intros. eapply nub_bind; [apply nub_get; auto|]. intros; cbn; auto. }
  assert (D : nub (fun _ => True) (gs <- pick_magnets o l l [] ;; v <- match gs with [] => Ok (vzero o) | _ => p <- get rm id ;; Ok (mag p) end ;;
      ms_magnets o A mag rm mp (acc ++ map (fun g => (g, v)) gs))).
  { eapply nub_bind; [apply nub_pick|]. intros gs _. eapply nub_bind with (P := fun _ => True); [|intros v _; apply IH; auto].
    destruct gs; [cbn; auto|apply (G _ tt)]. }
  destruct l as [|g [|g' l]]; auto.
  eapply nub_bind with (P := fun _ => True); [|intros v _; apply IH; auto]. destruct g; [cbn; auto|apply (G _ tt)].
Qed.
Lemma nub_norm : forall p, nub (fun _ => True) (normalize o p).
Proof.
  intros p. unfold normalize, norm. eapply nub_bind; [apply nub_sqrt|]. intros len _. destruct (eqb o len (zero o)); [cbn; auto|].
  do 2 (eapply nub_bind; [apply nub_div|]; intros ? _). cbn; auto.
Qed.
Lemma nub_segment : forall eps g mg i, i < length g -> nub (fun _ => True) (ms_segment o eps g mg i).
Proof.
  intros eps g mg i H. unfold ms_segment. eapply nub_bind; [apply nub_get; auto|]. intros p1 _.
  eapply nub_bind; [apply nub_get; apply Nat.mod_upper_bound; lia|]. intros p2 _.
  eapply nub_bind; [apply nub_norm|]. intros n _.
  eapply nub_bind with (P := fun _ => True). { unfold midPoint. do 2 (eapply nub_bind; [apply nub_div|]; intros ? _). cbn; auto. }
  intros mid _. eapply nub_bind; [apply nub_div|]. intros ? _. cbn; auto.
Qed.
Lemma nub_map : forall X Y (f : X -> res Y) l, (forall x, In x l -> nub (fun _ => True) (f x)) -> nub (fun _ => True) (map_res f l).
Proof.
  intros X Y f l. induction l as [|x l IH]; intros H; cbn [map_res]; [cbn; auto|].
  eapply nub_bind; [apply H; cbn; auto|]. intros y _. eapply nub_bind; [apply IH; intros; apply H; cbn; auto|]. intros; cbn; auto.
Qed.
Lemma nub_segments : forall eps l, nub (fun _ => True) (ms_segments o eps l).
Proof.
  intros eps l. unfold ms_segments. eapply nub_bind; [|intros ls _; cbn; auto]. apply nub_map. intros gm _.
  apply nub_map. intros i Hi. apply in_seq in Hi. apply nub_segment. lia.
Qed.
Lemma nub_psd : forall p a b, nub (fun _ => True) (pointSegmentDistance o p a b).
Proof.
  intros. unfold pointSegmentDistance. eapply nub_bind; [apply nub_div|]. intros x _.
  destruct (ltb o x (zero o)); [apply nub_distance|]. destruct (gtb o x (one o)); apply nub_distance.
Qed.
Lemma nub_line : forall m e s b, fst e < length (m_points m) -> snd e < length (m_points m) -> length b = length (m_points m) ->
  nub (fun b' => length b' = length (m_points m)) (line_load o A m e s b).
Proof.
  intros m e [[q1 q2] Jm] b H1 H2 Hb. unfold line_load.
  eapply nub_bind; [apply nub_get; auto|]. intros p1 _. eapply nub_bind; [apply nub_get; auto|]. intros p2 _.
  do 2 (eapply nub_bind; [apply nub_psd|]; intros ? _). eapply nub_bind; [apply nub_div|]. intros ten _.
  match goal with |- nub _ (if ?c then _ else _) => destruct c end; [|cbn; auto].
  eapply nub_bind; [apply nub_distance|]. intros len _.
  eapply nub_bind; [apply nub_get; lia|]. intros x _. eapply nub_bind; [apply nub_set; lia|]. intros b' Hb'; cbn beta in Hb'.
  eapply nub_bind; [apply nub_get; lia|]. intros y _. eapply nub_weaken; [apply nub_set; lia|]. intros b'' H''. cbn in *. lia.
Qed.
Lemma insert_in : forall l e x, In x (insert_edge l e) -> In x l \/ x = e.
Proof. intros l e x. unfold insert_edge. destruct (existsb (same_segment e) l); auto. intros H. apply in_app_or in H. destruct H as [H|[H|[]]]; auto. Qed.
Lemma unique_in : forall n ts e, Forall (tri_in n) ts -> In e (unique_edges ts) -> fst e < n /\ snd e < n.
Proof.
  intros n ts e H. unfold unique_edges.
  assert (G : forall ts l, Forall (tri_in n) ts -> (forall x, In x l -> fst x < n /\ snd x < n) ->
    In e (fold_left (fun l t => insert_edge (insert_edge (insert_edge l (t0 t, t1 t)) (t1 t, t2 t)) (t2 t, t0 t)) ts l) -> fst e < n /\ snd e < n).
  { clear. intros ts. induction ts as [|t ts IH]; intros l H Hl K; cbn [fold_left] in K; auto.
    inversion H as [|? ? [X [Y Z]] H2]; subst. refine (IH _ H2 _ K). intros x Hx.
    apply insert_in in Hx. destruct Hx as [Hx| ->]; [|cbn; auto].
    apply insert_in in Hx. destruct Hx as [Hx| ->]; [|cbn; auto].
    apply insert_in in Hx. destruct Hx as [Hx| ->]; [|cbn; auto]. auto. }
  apply (G ts []); auto. intros x [].
Qed.

Lemma nub_ms_load : forall D p v, nub (fun _ => True) (q <- div o (mul o D (curJ p)) (ofZ o 6) ;; Ok (ne_add_num o v q)).
Proof. intros. eapply nub_bind; [apply nub_div|]. intros; cbn; auto. Qed.
Lemma ms_nub : forall m es, well_shaped m -> drawing_ok m -> Permutation es (unique_edges (m_tris m)) -> (forall v, degree (m_tris m) v <= 18) ->
  ~ is_ub (ms_getFemSystem o A curJ mag m es).
Proof.
  intros m es Hs Hr Hp Hd. apply nub_not with (P := fun _ => True). unfold ms_getFemSystem.
  eapply nub_bind; [apply nub_assemble; auto; apply nub_ms_load|]. intros S HS.
  eapply nub_bind; [apply nub_magpoly; [apply Hr|constructor]|]. intros mp Hmp.
  eapply nub_bind; [apply nub_magnets; auto|]. intros mags _.
  eapply nub_bind; [apply nub_segments|]. intros segs _.
  destruct (Nat.ltb (length (m_points m)) 2); [cbn; auto|].
  eapply nub_bind with (P := fun b => length b = length (m_points m)); [|intros; cbn; auto].
  apply nub_list; auto. intros e b He Hb. apply nub_list; auto. intros s b' _ Hb'.
  assert (K : In e (unique_edges (m_tris m))) by (eapply Permutation_in; eauto).
  apply (unique_in (length (m_points m))) in K; [|apply Hs]. apply nub_line; tauto.
Qed.
Lemma degree_dec : forall m, well_shaped m -> (forall v, degree (m_tris m) v <= 18) \/ exists v, 18 < degree (m_tris m) v.
Proof.
  intros m Hs.
  assert (G : forall n, (forall v, v < n -> degree (m_tris m) v <= 18) \/ exists v, 18 < degree (m_tris m) v).
  { induction n as [|n [IH|IH]]; auto; [left; intros; lia|].
    destruct (le_lt_dec (degree (m_tris m) n) 18); [|eauto]. left. intros v Hv. destruct (Nat.eq_dec v n); [subst; auto|apply IH; lia]. }
  destruct (G (length (m_points m))) as [H|H]; auto. left. intros v.
  destruct (le_lt_dec (degree (m_tris m) v) 0); [lia|]. apply H. apply (degree_out _ (m_tris m)); [apply Hs|lia].
Qed.
Lemma ms_safe : forall m es, well_shaped m -> drawing_ok m -> Permutation es (unique_edges (m_tris m)) ->
  is_ub (ms_getFemSystem o A curJ mag m es) -> exists v, 18 < degree (m_tris m) v.
Proof. intros m es H1 H2 H3 H4. destruct (degree_dec m H1) as [D|D]; auto. exfalso. revert H4. apply ms_nub; auto. Qed.
Lemma ms_over : forall m es, well_shaped m -> known_regions m -> (exists v, 18 < degree (m_tris m) v) -> is_ub (ms_getFemSystem o A curJ mag m es).
Proof.
  intros m es H1 H2 H3. unfold ms_getFemSystem, ms_surface.
  match goal with |- is_ub (bind ?a _) => assert (K : is_ub a) by (apply assemble_over; auto) end. destruct K as [s E]. rewrite E. exists s. reflexivity.
Qed.

(** ** cotangent weights *)
Variable lm : libm o.
Lemma push_spec : forall X (tb : table X) v x, v < length tb ->
  push 18 tb v x = if Nat.leb 18 (length (trow tb v)) then UB "adjacency array out of bounds" else Ok (upd tb v (trow tb v ++ [x])).
Proof. intros X tb v x H. unfold push. rewrite get_row by auto. cbn [bind]. destruct (Nat.leb 18 (length (trow tb v))); auto. rewrite set_lt by auto. auto. Qed.
Fixpoint pushes (tb : table nat) (l : list (nat * nat)) : res (table nat) :=
  match l with [] => Ok tb | (v, x) :: l' => tb <- push 18 tb v x ;; pushes tb l' end.
Lemma pushes_out : forall n l tb, length tb = n -> Forall (fun vx => fst vx < n /\ snd vx < n) l -> (forall v, length (trow tb v) <= 18) ->
  (forall v x, In x (trow tb v) -> x < n) ->
  match pushes tb l with
  | Ok tb' => length tb' = n /\ (forall v, v < n -> length (trow tb' v) = length (trow tb v) + count v (map fst l)) /\
              (forall v, length (trow tb' v) <= 18) /\ (forall v x, In x (trow tb' v) -> x < n)
  | UB _ => exists v, 18 < length (trow tb v) + count v (map fst l)
  | _ => False
  end.
Proof.
  intros n l. induction l as [|[v x] l IH]; intros tb Hn Hl Hc Hx; cbn [pushes].
  - split; auto.
  - inversion Hl as [|? ? [H1 H2] H3]; subst. cbn [fst snd] in *. rewrite push_spec by auto.
    destruct (Nat.leb_spec 18 (length (trow tb v))) as [L|L].
    + cbn [bind]. exists v. cbn [map fst]. rewrite count_cons, Nat.eqb_refl. lia.
    + cbn [bind]. set (tb1 := upd tb v (trow tb v ++ [x])).
      assert (R1 : forall w, length (trow tb1 w) = length (trow tb w) + (if Nat.eqb v w then 1 else 0)).
      { intros w. unfold tb1. rewrite trow_upd by auto. destruct (Nat.eqb_spec v w); [subst; rewrite app_length; cbn; lia|lia]. }
      specialize (IH tb1 ltac:(apply upd_length) H3).
      specialize (IH ltac:(intros w; rewrite R1; specialize (Hc w); destruct (Nat.eqb_spec v w); [subst|]; lia)).
      assert (Hx1 : forall w y, In y (trow tb1 w) -> y < length tb).
      { intros w y Hy. unfold tb1 in Hy. rewrite trow_upd in Hy by auto. destruct (Nat.eqb_spec v w); [|eauto].
        apply in_app_or in Hy. destruct Hy as [Hy|[<-|[]]]; eauto. }
      specialize (IH Hx1). destruct (pushes tb1 l) as [tb'|s|s|s]; auto.
      * destruct IH as [I1 [I2 [I3 I4]]]. split; auto. split; auto. intros w Hw. rewrite I2 by auto. cbn [map fst]. rewrite R1, count_cons. lia.
      * destruct IH as [w Hw]. exists w. cbn [map fst]. rewrite count_cons. rewrite R1 in Hw. lia.
Qed.
Definition pairs_of (t : tri) : list (nat * nat) :=
  [(t0 t, t1 t); (t0 t, t2 t); (t1 t, t2 t); (t1 t, t0 t); (t2 t, t0 t); (t2 t, t1 t)].
Lemma bind_ret : forall X (r : res X), (a <- r ;; Ok a) = r.
Proof. intros X []; reflexivity. Qed.
Lemma pushes_app : forall l1 l2 tb, pushes tb (l1 ++ l2) = (tb <- pushes tb l1 ;; pushes tb l2).
Proof.
  induction l1 as [|[v x] l1 IH]; intros l2 tb; cbn [app pushes]; [reflexivity|].
  destruct (push 18 tb v x); cbn [bind]; auto.
Qed.
Lemma neighbours_pushes : forall m, neighbours o A m = pushes (repeat [] (length (m_points m))) (concat (map pairs_of (m_tris m))).
Proof.
  intros m. unfold neighbours. generalize (repeat (@nil nat) (length (m_points m))). induction (m_tris m) as [|t l IH]; intros tb; cbn [forM_list map concat]; auto.
  rewrite pushes_app. cbn [pairs_of pushes]. 
  repeat match goal with |- context [bind (push 18 ?a ?b ?c) _] => destruct (push 18 a b c); cbn [bind]; auto end.
Qed.
Lemma pairs_degree : forall ts v, count v (map fst (concat (map pairs_of ts))) = 2 * degree ts v.
Proof.
  intros ts v. induction ts as [|t ts IH]; [reflexivity|]. cbn [map concat]. rewrite map_app. unfold count in *. rewrite filter_app, app_length, IH.
  rewrite degree_cons. unfold count, corners. cbn. destruct (Nat.eqb v (t0 t)), (Nat.eqb v (t1 t)), (Nat.eqb v (t2 t)); cbn; lia.
Qed.
Lemma neighbours_out : forall m, well_shaped m ->
  match neighbours o A m with
  | Ok nb => length nb = length (m_points m) /\ (forall v, 2 * degree (m_tris m) v <= 18) /\ (forall v x, In x (trow nb v) -> x < length (m_points m))
  | UB _ => exists v, 9 < degree (m_tris m) v
  | _ => False
  end.
Proof.
  intros m Hs. rewrite neighbours_pushes.
  pose proof (pushes_out (length (m_points m)) (concat (map pairs_of (m_tris m))) (repeat [] (length (m_points m))) (repeat_length _ _)) as K.
  assert (HF : Forall (fun vx => fst vx < length (m_points m) /\ snd vx < length (m_points m)) (concat (map pairs_of (m_tris m)))).
  { clear K. destruct Hs as [Hs _]. induction Hs as [|t l [X [Y Z]] Hs IH]; cbn [map concat]; auto. apply Forall_app. split; auto. unfold pairs_of. repeat (apply Forall_cons; [cbn; auto|]). apply Forall_nil.
 }
  specialize (K HF ltac:(intros v; rewrite trow_empty; cbn; lia) ltac:(intros v x; rewrite trow_empty; intros [])).
  destruct (pushes _ _) as [nb|s|s|s]; auto.
  - destruct K as [K1 [K2 [K3 K4]]]. split; auto. split; auto. intros v.
    destruct (le_lt_dec (degree (m_tris m) v) 0); [lia|]. assert (v < length (m_points m)) by (apply (degree_out _ (m_tris m)); [apply Hs|lia]).
    rewrite <- pairs_degree. specialize (K3 v). rewrite K2 in K3 by auto. rewrite trow_empty in K3. exact K3.
  - destruct K as [v Hv]. exists v. rewrite trow_empty, pairs_degree in Hv. cbn in Hv. lia.
Qed.
Lemma nub_common : forall m v1 v2 l, well_shaped m -> (forall e, In e l -> fst e < length (m_tris m)) ->
  nub (fun ts => Forall (tri_in (length (m_points m))) ts) (common_tris o A m v1 v2 l).
Proof.
  intros m v1 v2 l Hs. induction l as [|[id p] l IH]; intros H; cbn [common_tris]; [cbn; auto|].
  eapply nub_bind; [apply nub_get; apply (H (id, p)); cbn; auto|]. intros t Ht.
  eapply nub_bind; [apply IH; intros; apply H; cbn; auto|]. intros ts Hts. cbn. destruct (has_corner v1 t && has_corner v2 t); auto.
  constructor; auto. destruct Hs as [Hs _]. rewrite Forall_forall in Hs. apply Hs. cbn beta in Ht. eapply nth_error_In; exact Ht.
Qed.
Lemma nub_third : forall n v1 v2 t, tri_in n t -> nub (fun v => v < n) (third_corner v1 v2 t).
Proof.
  intros n v1 v2 t [X [Y Z]]. unfold third_corner.
  repeat match goal with |- context [if ?c then _ else _] => destruct c; [cbn; auto|] end. cbn; auto.
Qed.
Lemma cot_nub : forall m, well_shaped m -> (forall v, degree (m_tris m) v <= 9) -> ~ is_ub (cd_getFemSystemCotangentWeights o A lm m).
Proof.
  intros m Hs Hd. apply nub_not with (P := fun _ => True). unfold cd_getFemSystemCotangentWeights.
  eapply nub_bind with (P := in_ids m).
  { pose proof (adjacency_out m Hs) as K. destruct (adjacency o A m) as [tb|s|s|s]; cbn; auto.
    - destruct K; auto.
    - destruct K as [v Hv]. specialize (Hd v). lia. }
  intros tb [Hl Hi].
  eapply nub_bind with (P := fun nb => length nb = length (m_points m) /\ forall v x, In x (trow nb v) -> x < length (m_points m)).
  { pose proof (neighbours_out m Hs) as K. destruct (neighbours o A m) as [nb|s|s|s]; cbn; auto; [tauto|].
    destruct K as [v Hv]. specialize (Hd v). lia. }
  intros nb [Hn1 Hn2].
  eapply nub_bind with (P := fun _ => True); [|intros; cbn; auto].
  apply nub_up; auto. intros i M Hlt _. rewrite get_row by lia. cbn [bind].
  eapply nub_bind with (P := fun _ => True).
  { apply nub_list; auto. intros v2 [s M'] Hv2 _. unfold cot_step. rewrite get_row by lia. cbn [bind].
    eapply nub_bind; [apply nub_common; auto; intros e He; eapply Hi; eauto|]. intros l Hts.
    destruct l as [|ta [|tb' l]]; try (cbn; auto; fail).
    inversion Hts as [|? ? T1 T2]; subst. inversion T2 as [|? ? T3 T4]; subst.
    eapply nub_bind; [apply nub_third; eauto|]. intros a Ha. eapply nub_bind; [apply nub_third; eauto|]. intros b Hb.
    assert (v2 < length (m_points m)) by eauto.
    do 4 (eapply nub_bind; [apply nub_get; auto|]; intros ? _).
    do 3 (eapply nub_bind; [apply nub_div|]; intros ? _).
    eapply nub_bind with (P := fun _ => True); [|intros; cbn; auto].
    destruct (Nat.leb_spec i v2); [apply nub_modify; auto|cbn; auto]. }
  intros [sum M'] _. apply nub_modify; auto.
Qed.
Lemma cot_over : forall m, well_shaped m -> known_regions m -> (exists v, 9 < degree (m_tris m) v) -> is_ub (cd_getFemSystemCotangentWeights o A lm m).
Proof.
  intros m Hs Hk [v Hv]. unfold cd_getFemSystemCotangentWeights.
  pose proof (adjacency_out m Hs) as K. destruct (adjacency o A m) as [tb|s|s|s]; [|contradiction|eexists; reflexivity|contradiction].
  cbn [bind]. pose proof (neighbours_out m Hs) as K2. destruct (neighbours o A m) as [nb|s|s|s]; [|contradiction|eexists; reflexivity|contradiction].
  destruct K2 as [_ [K2 _]]. specialize (K2 v). lia.
Qed.
Lemma cot_safe : forall m, well_shaped m -> is_ub (cd_getFemSystemCotangentWeights o A lm m) -> exists v, 9 < degree (m_tris m) v.
Proof.
  intros m Hs Hu.
  assert (G : forall n, (forall v, v < n -> degree (m_tris m) v <= 9) \/ exists v, 9 < degree (m_tris m) v).
  { induction n as [|n [IH|IH]]; auto; [left; intros; lia|].
    destruct (le_lt_dec (degree (m_tris m) n) 9); [|eauto]. left. intros v Hv. destruct (Nat.eq_dec v n); [subst; auto|apply IH; lia]. }
  destruct (G (length (m_points m))) as [H|H]; auto. exfalso. revert Hu. apply cot_nub; auto. intros v.
  destruct (le_lt_dec (degree (m_tris m) v) 0); [lia|]. apply H. apply (degree_out _ (m_tris m)); [apply Hs|lia].
Qed.
End Gen.
