(** Reference counts of the results of the Python bindings. *)
From Coq Require Import String.
From Coq Require Import List Arith ZArith Bool Lia.
From Verif Require Import Base GeometryModel DrawingModel MeshModel LayersModel BindModel RefModel RefSpec.
Import ListNotations.

Definition obj (h : heap) (x r : nat) (k : list (option nat)) : Prop := nth_error h x = Some (Some (r, k)).
(** nothing disappears, no count falls, and what objects own stays the same except for those in E *)
Definition kept (E : nat -> Prop) (h h' : heap) : Prop :=
  forall x r k, obj h x r k -> exists r' k', obj h' x r' k' /\ r <= r' /\ (~ E x -> k' = k).
Definition none : nat -> Prop := fun _ => False.
Lemma kept_refl : forall E h, kept E h h.
Proof. intros E h x r k H. exists r, k. auto. Qed.
Lemma kept_trans : forall E h1 h2 h3, kept E h1 h2 -> kept E h2 h3 -> kept E h1 h3.
Proof.
  intros E h1 h2 h3 A B x r k H. destruct (A x r k H) as [r2 [k2 [H2 [L2 K2]]]]. destruct (B x r2 k2 H2) as [r3 [k3 [H3 [L3 K3]]]].
  exists r3, k3. split; auto. split; [lia|]. intros N. rewrite K3, K2; auto.
Qed.
Lemma kept_weaken : forall (E E' : nat -> Prop) h h', (forall x, E x -> E' x) -> kept E h h' -> kept E' h h'.
Proof. intros E E' h h' HS A x r k H. destruct (A x r k H) as [r2 [k2 [H2 [L2 K2]]]]. exists r2, k2. split; auto. split; auto. Qed.
Lemma kept_live : forall E h h' x, kept E h h' -> live h x -> live h' x.
Proof. intros E h h' x A [r [k H]]. destruct (A x (S r) k H) as [[|r'] [k' [H' [L _]]]]; [lia|]. exists r', k'. exact H'. Qed.
Lemma kept_table : forall E small h h', kept E h h' -> table_ready small h -> table_ready small h'.
Proof. intros E small h h' A H z x Hz. eapply kept_live; eauto. Qed.
Lemma obj_lt : forall h x r k, obj h x r k -> x < length h.
Proof. intros h x r k H. apply nth_error_Some. unfold obj in H. congruence. Qed.
(** an object made after h is not part of h *)
Lemma kept_fresh : forall h h1 h2, kept none h h1 -> kept (eq (length h)) h1 h2 -> kept none h h2.
Proof.
  intros h h1 h2 A B x r k H. destruct (A x r k H) as [r2 [k2 [H2 [L2 K2]]]]. destruct (B x r2 k2 H2) as [r3 [k3 [H3 [L3 K3]]]].
  exists r3, k3. split; auto. split; [lia|]. intros N. apply obj_lt in H. rewrite K3, K2; auto. lia.
Qed.

(** ** sums over the heap *)
Lemma out_app : forall h c, outside_references (h ++ [c]) = (outside_references h + owned c)%Z.
Proof. intros h c. induction h as [|d h IH]; cbn; [lia|]. unfold outside_references in IH. rewrite IH. lia. Qed.
Lemma out_upd : forall h x c c', nth_error h x = Some c -> outside_references (upd h x c') = (outside_references h - owned c + owned c')%Z.
Proof.
  unfold outside_references. induction h as [|d h IH]; intros [|x] c c' H; cbn [nth_error upd fold_right] in *; try discriminate H; [inversion H; subst; lia|]. specialize (IH x c c' H). rewrite IH. lia.
Qed.
Lemma obj_app : forall h r k, objects (h ++ [Some (r, k)]) = S (objects h).
Proof. intros. unfold objects. rewrite filter_app, app_length. cbn [filter length]. apply Nat.add_1_r. Qed.
Lemma obj_upd : forall h x r k r' k', obj h x r k -> objects (upd h x (Some (r', k'))) = objects h.
Proof.
  unfold objects, obj. induction h as [|d h IH]; intros [|x] r k r' k' H; cbn in *; try discriminate H; [inversion H; subst; reflexivity|].
  destruct d; cbn [length]; rewrite (IH x r k r' k' H); reflexivity.
Qed.
Lemma obj_free : forall h x r k, obj h x r k -> S (objects (upd h x None)) = objects h.
Proof.
  unfold objects, obj. induction h as [|d h IH]; intros [|x] r k H; cbn in *; try discriminate H; [inversion H; subst; reflexivity|].
  destruct d; cbn [length]; rewrite (IH x r k H); reflexivity.
Qed.

(** ** one call of the C API *)
Lemma fresh_spec : forall h s, kept none h (snd (fresh h s)) /\ obj (snd (fresh h s)) (length h) 1 s /\
  outside_references (snd (fresh h s)) = (outside_references h + owned (Some (1%nat, s)))%Z /\ objects (snd (fresh h s)) = S (objects h) /\ length (snd (fresh h s)) = S (length h).
Proof.
  intros h s. unfold fresh. cbn [snd]. split; [|split; [|split; [|split]]].
  - intros x r k H. exists r, k. split; auto. unfold obj in *. rewrite nth_error_app1; auto. apply nth_error_Some. congruence.
  - unfold obj. rewrite nth_error_app2, Nat.sub_diag by lia. reflexivity.
  - apply out_app.
  - apply obj_app.
  - rewrite app_length. cbn. lia.
Qed.
Lemma obj_upd_at : forall h x y c r k, x < length h -> obj (upd h x c) y r k <-> (y = x /\ c = Some (r, k)) \/ (y <> x /\ obj h y r k).
Proof.
  intros h x y c r k L. unfold obj. destruct (Nat.eq_dec y x) as [->|N].
  - rewrite nth_error_upd_same by auto. split; [intros H; inversion H; auto|intros [[_ ->]|[H _]]; [auto|congruence]].
  - rewrite nth_error_upd_other by auto. split; [auto|intros [[H _]|[_ H]]; [congruence|auto]].
Qed.
Lemma upd_kept : forall (E : nat -> Prop) h x r k r' k', obj h x r k -> r <= r' -> (~ E x -> k' = k) -> kept E h (upd h x (Some (r', k'))).
Proof.
  intros E h x r k r' k' H L K y s j Hy. assert (Lx : x < length h) by (eapply obj_lt; eauto).
  destruct (Nat.eq_dec y x) as [->|N].
  - unfold obj in H, Hy. rewrite H in Hy. inversion Hy; subst. exists r', k'. split; [apply obj_upd_at; auto|auto].
  - exists s, j. split; [apply obj_upd_at; auto|auto].
Qed.
Lemma incref_spec : forall h x r k, obj h x r k -> exists h', incref h x = Ok h' /\ kept none h h' /\ obj h' x (S r) k /\
  outside_references h' = (outside_references h + 1)%Z /\ objects h' = objects h /\ length h' = length h.
Proof.
  intros h x r k H. assert (Lx : x < length h) by (eapply obj_lt; eauto). unfold incref, get. unfold obj in H. rewrite H. cbn [bind]. rewrite set_lt by auto.
  eexists. split; [reflexivity|]. split; [eapply upd_kept; eauto|]. split; [apply obj_upd_at; auto|]. split; [rewrite (out_upd _ _ _ _ H); cbn [owned]; lia|].
  split; [eapply obj_upd; eauto|apply upd_length].
Qed.
Lemma set_spec : forall h l i x r k, obj h l r k -> nth_error k i = Some None ->
  exists h', list_set l i x h = Ok h' /\ kept (eq l) h h' /\ obj h' l r (upd k i (Some x)) /\
    outside_references h' = (outside_references h - 1)%Z /\ objects h' = objects h /\ length h' = length h.
Proof.
  intros h l i x r k H Hk. assert (Ll : l < length h) by (eapply obj_lt; eauto). unfold list_set, get. unfold obj in H. rewrite H. cbn [bind]. rewrite Hk, set_lt by auto. cbn [bind].
  eexists. split; [reflexivity|]. split; [eapply upd_kept; eauto; intros N; exfalso; apply N; auto|]. split; [apply obj_upd_at; auto|].
  split; [|split; [eapply obj_upd; eauto|apply upd_length]]. rewrite (out_upd _ _ _ _ H). cbn [owned].
  assert (G : forall k i, nth_error k i = Some None -> length (filter (fun s : option nat => match s with Some _ => true | None => false end) (upd k i (Some x))) =
    S (length (filter (fun s : option nat => match s with Some _ => true | None => false end) k))).
  { induction k0 as [|s k0 IH]; intros [|j] E; cbn in *; try discriminate E; [inversion E; subst; reflexivity|]. destruct s; cbn [length]; rewrite (IH j E); reflexivity. }
  rewrite (G k i Hk). lia.
Qed.
Lemma increfs_spec : forall ys h, (forall y, In y ys -> exists r k, obj h y r k) ->
  exists h', forM_list ys (fun x h => incref h x) h = Ok h' /\ kept none h h' /\
    (forall y r k, In y ys -> obj h y r k -> exists r', obj h' y r' k /\ S r <= r') /\
    outside_references h' = (outside_references h + Z.of_nat (length ys))%Z /\ objects h' = objects h /\ length h' = length h.
Proof.
  induction ys as [|y ys IH]; intros h HL; cbn [forM_list].
  - exists h. split; auto. split; [apply kept_refl|]. split; [intros ? ? ? []|]. split; [cbn; lia|auto].
  - destruct (HL y) as [r [k H]]; [cbn; auto|]. destruct (incref_spec h y r k H) as [h1 [E1 [K1 [O1 [X1 [N1 L1]]]]]]. rewrite E1. cbn [bind].
    destruct (IH h1) as [h2 [E2 [K2 [U2 [X2 [N2 L2]]]]]].
    { intros z Hz. destruct (HL z) as [rz [kz Hz']]; [cbn; auto|]. destruct (K1 z rz kz Hz') as [r' [k' [H' _]]]. eauto. }
    exists h2. split; auto. split; [eapply kept_trans; eauto|]. split.
    + intros z rz kz Hz Ho. destruct Hz as [<-|Hz].
      * unfold obj in H, Ho. rewrite H in Ho. inversion Ho; subst. destruct (K2 y (S rz) kz O1) as [r' [k' [H' [L' K']]]]. exists r'. rewrite K' in H' by (intros []). auto.
      * destruct (K1 z rz kz Ho) as [r1 [k1 [H1 [Lr Kk]]]]. rewrite Kk in H1 by (intros []). destruct (U2 z r1 kz Hz H1) as [r2 [H2 L2']]. exists r2. split; auto. lia.
    + split; [cbn [length]; lia|split; lia].
Qed.
Lemma pack_spec : forall ys h, (forall y, In y ys -> exists r k, obj h y r k) ->
  exists h', tuple_pack ys h = Ok (length h, h') /\ kept none h h' /\ obj h' (length h) 1 (map Some ys) /\
    (forall y r k, In y ys -> obj h y r k -> exists r', obj h' y r' k /\ S r <= r') /\
    outside_references h' = (outside_references h + 1)%Z /\ objects h' = S (objects h) /\ length h' = S (length h).
Proof.
  intros ys h HL. destruct (increfs_spec ys h HL) as [h1 [E1 [K1 [U1 [X1 [N1 L1]]]]]]. unfold tuple_pack. rewrite E1. cbn [bind].
  destruct (fresh_spec h1 (map Some ys)) as [K2 [O2 [X2 [N2 L2]]]]. unfold fresh in *. cbn [snd] in *. rewrite L1 in *.
  eexists. split; [reflexivity|]. split; [eapply kept_trans; eauto|]. split; auto. split.
  - intros y r k Hy Ho. destruct (U1 y r k Hy Ho) as [r1 [H1 Lr]]. destruct (K2 y r1 k H1) as [r2 [k2 [H2 [L2' K2']]]]. rewrite K2' in H2 by (intros []). exists r2. split; auto. lia.
  - split; [|split; lia]. rewrite X2, X1. cbn [owned].
    assert (G : forall l : list nat, filter (fun s : option nat => match s with Some _ => true | None => false end) (map Some l) = map Some l).
    { induction l as [|a l IH]; cbn; [reflexivity|]. rewrite IH. reflexivity. }
    rewrite G, map_length. lia.
Qed.

Section Fill.
Variable small : nat -> option nat.
Definition is_new (x : num) : bool := match x with Flt => true | Int z => match small z with None => true | Some _ => false end end.
Lemma box_spec : forall x h, table_ready small h -> exists y h', box small x h = Ok (y, h') /\ kept none h h' /\ (exists r k, obj h' y r k) /\
  outside_references h' = (outside_references h + 1)%Z /\ objects h' = (if is_new x then 1 else 0) + objects h.
Proof.
  intros x h TR. assert (F : exists y h', Ok (fresh h []) = Ok (y, h') /\ kept none h h' /\ (exists r k, obj h' y r k) /\
    outside_references h' = (outside_references h + 1)%Z /\ objects h' = 1 + objects h).
  { destruct (fresh_spec h []) as [K [O [X [N L]]]]. exists (length h), (snd (fresh h [])). split; auto. split; auto. split; [eauto|]. split; [rewrite X; cbn; lia|lia]. }
  destruct x as [z|]; cbn [box is_new]; [|exact F]. destruct (small z) as [y|] eqn:Sz; [|exact F].
  destruct (TR z y Sz) as [r [k H]]. destruct (incref_spec h y (S r) k H) as [h' [E [K [O [X [N L]]]]]]. rewrite E. cbn [bind]. exists y, h'. split; auto. split; auto. split; [eauto|]. split; auto.
Qed.
Lemma box_all_spec : forall xs h, table_ready small h -> exists ys h', box_all small xs h = Ok (ys, h') /\ kept none h h' /\ (forall y, In y ys -> exists r k, obj h' y r k) /\
  outside_references h' = (outside_references h + Z.of_nat (length xs))%Z /\ objects h' = length (filter is_new xs) + objects h.
Proof.
  induction xs as [|x xs IH]; intros h TR; cbn [box_all].
  - exists [], h. split; auto. split; [apply kept_refl|]. split; [intros ? []|]. split; [cbn; lia|auto].
  - destruct (box_spec x h TR) as [y [h1 [E1 [K1 [[r [k O1]] [X1 N1]]]]]]. rewrite E1. cbn [bind].
    destruct (IH h1 (kept_table _ _ _ _ K1 TR)) as [ys [h2 [E2 [K2 [O2 [X2 N2]]]]]]. rewrite E2. cbn [bind]. exists (y :: ys), h2. split; auto. split; [eapply kept_trans; eauto|].
    split; [|split].
    + intros z [<-|Hz]; auto. destruct (K2 y r k O1) as [r' [k' [H' _]]]. eauto.
    + cbn [length]. lia.
    + cbn [filter]. destruct (is_new x); cbn [length]; lia.
Qed.
Definition empty_from (k : list (option nat)) (b : nat) : Prop := forall i, b <= i -> i < length k -> nth_error k i = Some None.
Definition weight (rows : list (list num)) : nat := list_sum (map (@length num) rows).
Definition mass (rows : list (list num)) : nat := list_sum (map (fun row => S (length (filter is_new row))) rows).
Lemma fill_spec : forall rows l base h r k, table_ready small h -> obj h l r k -> base + length rows <= length k -> empty_from k base ->
  exists h' r' k', fill small l base rows h = Ok h' /\ kept (eq l) h h' /\ obj h' l r' k' /\ length k' = length k /\ empty_from k' (base + length rows) /\
    outside_references h' = (outside_references h + Z.of_nat (weight rows))%Z /\ objects h' = mass rows + objects h.
Proof.
  induction rows as [|row rows IH]; intros l base h r k TR H Lk Ek; cbn [fill].
  - exists h, r, k. rewrite Nat.add_0_r. split; auto. split; [apply kept_refl|]. split; auto. split; auto. split; auto. split; [cbn; lia|auto].
  - cbn [length] in Lk. destruct (box_all_spec row h TR) as [ys [h1 [E1 [K1 [O1 [X1 N1]]]]]]. rewrite E1. cbn [bind].
    destruct (pack_spec ys h1 O1) as [h2 [E2 [K2 [_ [_ [X2 [N2 L2]]]]]]]. rewrite E2. cbn [bind].
    destruct (kept_trans _ _ _ _ K1 K2 l r k H) as [r2 [k2 [H2 [Lr2 Kk2]]]]. rewrite Kk2 in H2 by (intros []). clear k2 Kk2.
    assert (Slot : nth_error k base = Some None) by (apply Ek; lia).
    destruct (set_spec h2 l base (length h1) r2 k H2 Slot) as [h3 [E3 [K3 [O3 [X3 [N3 L3]]]]]]. rewrite E3. cbn [bind].
    assert (KK : kept (eq l) h h3). { eapply kept_trans; [|exact K3]. eapply kept_weaken; [|eapply kept_trans; [exact K1|exact K2]]. intros x []. }
    destruct (IH l (S base) h3 r2 (upd k base (Some (length h1)))) as [h4 [r4 [k4 [E4 [K4 [O4 [Lk4 [Em4 [X4 N4]]]]]]]]]; auto.
    + eapply kept_table; eauto.
    + rewrite upd_length. lia.
    + intros i Hi Hl. rewrite upd_length in Hl. rewrite nth_error_upd_other by lia. apply Ek; lia.
    + rewrite upd_length in Lk4. exists h4, r4, k4. split; auto. split; [eapply kept_trans; eauto|]. split; auto. split; auto.
      split; [intros i Hi Hl; apply Em4; [cbn [length] in Hi; lia|auto]|].
      unfold weight, mass in *. cbn [map list_sum fold_right]. unfold list_sum in *. split; [rewrite X4, X3, X2, X1; lia|rewrite N4, N3, N2, N1; lia].
Qed.
Lemma fill_app : forall a b l base h, fill small l base (a ++ b) h = (h <- fill small l base a h ;; fill small l (base + length a) b h).
Proof.
  induction a as [|row a IH]; intros b l base h; cbn [app fill length]; [rewrite Nat.add_0_r; reflexivity|].
  destruct (box_all small row h) as [[ys h1]| | |]; cbn [bind]; auto. destruct (tuple_pack ys h1) as [[t h2]| | |]; cbn [bind]; auto.
  destruct (list_set l base t h2); cbn [bind]; auto. rewrite IH, Nat.add_succ_r. reflexivity.
Qed.
Lemma fill_chunks : forall (X : Type) (base : X -> nat) (rows : X -> list (list num)) body l xs start h,
  map base xs = offsets_from start (map (fun x => length (rows x)) xs) -> (forall x h, body x h = fill small l (base x) (rows x) h) ->
  forM_list xs body h = fill small l start (concat (map rows xs)) h.
Proof.
  intros X base rows body l xs. induction xs as [|x xs IH]; intros start h HB HE; cbn [forM_list map concat]; [reflexivity|].
  cbn [map offsets_from] in HB. inversion HB as [[H1 H2]]. rewrite HE, fill_app, H1. destruct (fill small l start (rows x) h); cbn [bind]; auto. apply IH; auto. rewrite <- H1. exact H2.
Qed.
Lemma weight_const : forall c rows, (forall row, In row rows -> length row = c) -> weight rows = c * length rows.
Proof.
  intros c rows. unfold weight. induction rows as [|row rows IH]; intros H; [cbn; lia|]. cbn [map list_sum fold_right length].
  unfold list_sum in IH. rewrite IH by (intros; apply H; cbn; auto). rewrite (H row) by (cbn; auto). lia.
Qed.
Lemma mass_ge : forall c rows, (forall row, In row rows -> c <= length (filter is_new row)) -> S c * length rows <= mass rows.
Proof.
  intros c rows. unfold mass. induction rows as [|row rows IH]; intros H; [cbn; lia|]. cbn [map list_sum fold_right length].
  unfold list_sum in IH. assert (K := IH ltac:(intros; apply H; cbn; auto)). specialize (H row ltac:(cbn; auto)). lia.
Qed.
End Fill.

(** ** the lists *)
Lemma total_cons : forall l a, fold_left Nat.add l a = a + fold_left Nat.add l 0.
Proof. induction l as [|x l IH]; intros a; cbn; [lia|]. rewrite (IH (a + x)), (IH x). lia. Qed.
Lemma total_sum : forall l, total l = list_sum l.
Proof. unfold total. induction l as [|x l IH]; cbn; [reflexivity|]. rewrite total_cons, IH. reflexivity. Qed.
Lemma concat_len : forall X Y (f : X -> list Y) xs, length (concat (map f xs)) = list_sum (map (fun x => length (f x)) xs).
Proof. induction xs as [|x xs IH]; cbn; [reflexivity|]. rewrite app_length, IH. reflexivity. Qed.
Lemma offsets_len : forall l a, length (offsets_from a l) = length l.
Proof. induction l as [|x l IH]; intros a; cbn; auto. Qed.
Lemma combine_map_snd : forall X Y (a : list X) (b : list Y), length a = length b -> map snd (combine a b) = b.
Proof. induction a as [|x a IH]; intros [|y b] H; cbn in *; try discriminate H; auto. rewrite IH by lia. reflexivity. Qed.
Lemma combine_map_fst : forall X Y (a : list X) (b : list Y), length a = length b -> map fst (combine a b) = a.
Proof. induction a as [|x a IH]; intros [|y b] H; cbn in *; try discriminate H; auto. rewrite IH by lia. reflexivity. Qed.

Section Lists.
Variable small : nat -> option nat.
Variable o : Ops.
Variable A : Type.
Notation mesh := (mesh o A).
Lemma layers_len : forall ms : list mesh, length (layers o A ms) = length ms.
Proof. intros ms. unfold layers, point_offsets, offsets. rewrite !combine_length, offsets_len, map_length, seq_length. lia. Qed.
Lemma layers_mesh : forall ms : list mesh, map (fun kom => snd (snd kom)) (layers o A ms) = ms.
Proof.
  intros ms. unfold layers. rewrite <- (map_map snd snd). unfold point_offsets, offsets.
  rewrite !combine_map_snd; auto; rewrite ?combine_length, ?offsets_len, ?map_length, ?seq_length; lia.
Qed.
Lemma layers_off : forall ms : list mesh, map (fun kom => fst (snd kom)) (layers o A ms) = point_offsets o A ms.
Proof.
  intros ms. unfold layers. rewrite <- (map_map snd fst). unfold point_offsets, offsets.
  rewrite combine_map_snd by (rewrite combine_length, offsets_len, map_length, seq_length; lia). apply combine_map_fst. rewrite offsets_len, map_length. reflexivity.
Qed.
Lemma layers_index : forall ms : list mesh, map fst (layers o A ms) = seq 0 (length ms).
Proof. intros ms. unfold layers. apply combine_map_fst. unfold point_offsets, offsets. rewrite combine_length, offsets_len, map_length, seq_length. lia. Qed.

(** a new list of n slots, filled from the start *)
Definition makes (h : heap) (l : nat) (h' : heap) (w ms : nat) : Prop :=
  l = length h /\ kept none h h' /\ (exists r k, obj h' l (S r) k) /\ l < length h' /\
  outside_references h' = (outside_references h + 1 + Z.of_nat w)%Z /\ objects h' = S ms + objects h.
Lemma filled_list : forall n rows h, table_ready small h -> length rows <= n ->
  exists h', fill small (length h) 0 rows (snd (list_new n h)) = Ok h' /\ makes h (length h) h' (weight rows) (mass small rows).
Proof.
  intros n rows h TR Ln. unfold list_new. destruct (fresh_spec h (repeat None n)) as [K1 [O1 [X1 [N1 L1]]]].
  destruct (fill_spec small rows (length h) 0 (snd (fresh h (repeat None n))) 1 (repeat None n)) as [h' [r' [k' [E [K [O [_ [_ [X N]]]]]]]]]; auto.
  - eapply kept_table; eauto.
  - rewrite repeat_length. lia.
  - intros i _ Hi. rewrite repeat_length in Hi. apply nth_error_repeat. auto.
  - exists h'. split; auto. split; auto. split; [eapply kept_fresh; eauto|].
    destruct (K (length h) 1 _ O1) as [[|r2] [k2 [H2 [L2 _]]]]; [lia|]. split; [eauto|]. split; [eapply obj_lt; eauto|].
    assert (Z0 : forall n, length (filter (fun s : option nat => match s with Some _ => true | None => false end) (repeat None n)) = 0) by (induction n0; cbn; auto).
    split; [rewrite X, X1; cbn [owned]; rewrite Z0; lia|rewrite N, N1; lia].
Qed.
Lemma voltage_spec : forall ms h n, table_ready small h -> node_count ms <= n ->
  exists h' q, voltage_objects small o A n ms h = Ok (length h, h') /\ makes h (length h) h' (4 * node_count ms) q /\ 4 * node_count ms <= q.
Proof.
  intros ms h n TR Ln. unfold voltage_objects. destruct (list_new n h) as [l h0] eqn:EL. assert (Hl : l = length h /\ h0 = snd (list_new n h)) by (rewrite EL; inversion EL; auto). destruct Hl as [-> ->].
  set (rows := fun kom : nat * (nat * mesh) => map (fun _ => [Int (fst kom); Flt; Flt; Flt]) (m_points (snd (snd kom)))).
  assert (LR : map (fun x => length (rows x)) (layers o A ms) = map (fun m => length (m_points m)) ms).
  { rewrite <- (layers_mesh ms) at 2. rewrite map_map. apply map_ext. intros x. unfold rows. apply map_length. }
  rewrite (fill_chunks small _ (fun kom => fst (snd kom)) rows _ (length h) (layers o A ms) 0).
  - destruct (filled_list n (concat (map rows (layers o A ms))) h TR) as [h' [E M]].
    { rewrite concat_len, LR, <- total_sum. exact Ln. }
    rewrite E. cbn [bind]. exists h', (mass small (concat (map rows (layers o A ms)))). split; auto.
    assert (IN : forall row, In row (concat (map rows (layers o A ms))) -> exists k, row = [Int k; Flt; Flt; Flt]).
    { intros row H. apply in_concat in H. destruct H as [c [H1 H2]]. apply in_map_iff in H1. destruct H1 as [kom [<- _]]. unfold rows in H2. apply in_map_iff in H2. destruct H2 as [p [<- _]]. eauto. }
    assert (LC : length (concat (map rows (layers o A ms))) = node_count ms) by (rewrite concat_len, LR, <- total_sum; reflexivity).
    split.
    + rewrite (weight_const 4), LC in M by (intros row H; destruct (IN row H) as [k ->]; reflexivity). exact M.
    + rewrite <- LC. apply mass_ge. intros row H. destruct (IN row H) as [k ->]. cbn. destruct (small k); cbn; lia.
  - rewrite LR, layers_off. reflexivity.
  - intros [k [off m]] h1. reflexivity.
Qed.
Lemma vertex_spec : forall ms h, table_ready small h ->
  exists h' q, vertex_objects small o A ms h = Ok (length h, h') /\ makes h (length h) h' (2 * node_count ms) q /\ 3 * node_count ms <= q.
Proof.
  intros ms h TR. unfold vertex_objects. fold (node_count ms). destruct (list_new (node_count ms) h) as [l h0] eqn:EL. assert (Hl : l = length h /\ h0 = snd (list_new (node_count ms) h)) by (rewrite EL; inversion EL; auto). destruct Hl as [-> ->].
  set (rows := fun kom : nat * (nat * mesh) => map (fun _ => [Flt; Flt]) (m_points (snd (snd kom)))).
  assert (LR : map (fun x => length (rows x)) (layers o A ms) = map (fun m => length (m_points m)) ms).
  { rewrite <- (layers_mesh ms) at 2. rewrite map_map. apply map_ext. intros x. unfold rows. apply map_length. }
  rewrite (fill_chunks small _ (fun kom => fst (snd kom)) rows _ (length h) (layers o A ms) 0).
  - assert (LC : length (concat (map rows (layers o A ms))) = node_count ms) by (rewrite concat_len, LR, <- total_sum; reflexivity).
    destruct (filled_list (node_count ms) (concat (map rows (layers o A ms))) h TR) as [h' [E M]]; [lia|].
    rewrite E. cbn [bind]. exists h', (mass small (concat (map rows (layers o A ms)))). split; auto.
    assert (IN : forall row, In row (concat (map rows (layers o A ms))) -> row = [Flt; Flt]).
    { intros row H. apply in_concat in H. destruct H as [c [H1 H2]]. apply in_map_iff in H1. destruct H1 as [kom [<- _]]. unfold rows in H2. apply in_map_iff in H2. destruct H2 as [p [<- _]]. auto. }
    split.
    + rewrite (weight_const 2), LC in M by (intros row H; rewrite (IN row H); reflexivity). exact M.
    + rewrite <- LC. apply mass_ge. intros row H. rewrite (IN row H). cbn. lia.
  - rewrite LR, layers_off. reflexivity.
  - intros [k [off m]] h1. reflexivity.
Qed.
Lemma power_spec : forall n h, table_ready small h -> exists h' q, power_objects small n h = Ok (length h, h') /\ makes h (length h) h' (2 * n) q /\ 2 * n <= q.
Proof.
  intros n h TR. unfold power_objects. destruct (list_new n h) as [l h0] eqn:EL. assert (Hl : l = length h /\ h0 = snd (list_new n h)) by (rewrite EL; inversion EL; auto). destruct Hl as [-> ->].
  set (rows := map (fun i => [Int i; Flt]) (seq 0 n)). assert (LC : length rows = n) by (unfold rows; rewrite map_length, seq_length; reflexivity).
  destruct (filled_list n rows h TR) as [h' [E M]]; [lia|]. rewrite E. cbn [bind]. exists h', (mass small rows). split; auto.
  assert (IN : forall row, In row rows -> exists k, row = [Int k; Flt]). { intros row H. apply in_map_iff in H. destruct H as [i [<- _]]. eauto. }
  split.
  - rewrite (weight_const 2), LC in M by (intros row H; destruct (IN row H) as [k ->]; reflexivity). exact M.
  - rewrite <- LC at 1. apply mass_ge. intros row H. destruct (IN row H) as [k ->]. cbn. destruct (small k); cbn; lia.
Qed.
Lemma triangle_spec : forall ms h, table_ready small h ->
  exists h' q, triangle_objects small o A ms h = Ok (length h, h') /\ makes h (length h) h' (4 * tri_count ms) q /\ tri_count ms <= q.
Proof.
  intros ms h TR. unfold triangle_objects. fold (tri_count ms). destruct (list_new (tri_count ms) h) as [l h0] eqn:EL. assert (Hl : l = length h /\ h0 = snd (list_new (tri_count ms) h)) by (rewrite EL; inversion EL; auto). destruct Hl as [-> ->].
  set (rows := fun bkom : nat * (nat * (nat * mesh)) => map (fun t => [Int (fst (snd bkom)); Int (t0 t + fst (snd (snd bkom))); Int (t1 t + fst (snd (snd bkom))); Int (t2 t + fst (snd (snd bkom)))]) (m_tris (snd (snd (snd bkom))))).
  set (xs := combine (tri_offsets o A ms) (layers o A ms)).
  assert (LO : length (tri_offsets o A ms) = length (layers o A ms)) by (rewrite layers_len; unfold tri_offsets, offsets; rewrite offsets_len, map_length; reflexivity).
  assert (LR : map (fun x => length (rows x)) xs = map (fun m => length (m_tris m)) ms).
  { rewrite <- (layers_mesh ms) at 1. rewrite <- (combine_map_snd _ _ (tri_offsets o A ms) (layers o A ms) LO) at 1. rewrite !map_map. apply map_ext. intros x. unfold rows. apply map_length. }
  rewrite (fill_chunks small _ (fun b => fst b) rows _ (length h) xs 0).
  - assert (LC : length (concat (map rows xs)) = tri_count ms) by (rewrite concat_len, LR, <- total_sum; reflexivity).
    destruct (filled_list (tri_count ms) (concat (map rows xs)) h TR) as [h' [E M]]; [lia|].
    rewrite E. cbn [bind]. exists h', (mass small (concat (map rows xs))). split; auto.
    assert (IN : forall row, In row (concat (map rows xs)) -> length row = 4).
    { intros row H. apply in_concat in H. destruct H as [c [H1 H2]]. apply in_map_iff in H1. destruct H1 as [kom [<- _]]. unfold rows in H2. apply in_map_iff in H2. destruct H2 as [p [<- _]]. auto. }
    split.
    + rewrite (weight_const 4), LC in M by auto. exact M.
    + rewrite <- LC. pose proof (mass_ge small 0 (concat (map rows xs))) as G. rewrite Nat.mul_1_l in G. apply G. intros; lia.
  - rewrite LR. unfold xs. rewrite combine_map_fst by auto. reflexivity.
  - intros [b [k [off m]]] h1. reflexivity.
Qed.
(** the list of lists *)
Lemma layer_tris_spec : forall ms h, table_ready small h ->
  exists h' q, layer_triangles small o A ms h = Ok (length h, h') /\ makes h (length h) h' (3 * tri_count ms) q /\ tri_count ms + length ms <= q.
Proof.
  intros ms h TR. unfold layer_triangles. destruct (list_new (length ms) h) as [l h0] eqn:EL. unfold list_new in EL.
  destruct (fresh_spec h (repeat None (length ms))) as [K1 [O1 [X1 [N1 L1]]]]. unfold fresh in *. inversion EL; subst l h0; clear EL. cbn [snd] in *.
  set (l := length h) in *. set (h1 := h ++ [Some (1, repeat None (length ms))]) in *.
  assert (G : forall xs b hh r k, map fst xs = seq b (length xs) -> table_ready small hh -> obj hh l (S r) k -> b + length xs <= length k -> empty_from k b ->
    exists h' r' k' q, forM_list xs (fun kom h => let '(k, (off, m)) := kom in
         let '(my, h) := list_new (length (m_tris m)) h in
         h <- fill small my 0 (map (fun t => [Int (t0 t + off); Int (t1 t + off); Int (t2 t + off)]) (m_tris m)) h ;;
         list_set l k my h) hh = Ok h' /\ kept (eq l) hh h' /\ obj h' l (S r') k' /\
      outside_references h' = (outside_references hh + 3 * Z.of_nat (list_sum (map (fun kom => length (m_tris (snd (snd kom) : mesh))) xs)))%Z /\
      objects h' = q + objects hh /\ list_sum (map (fun kom => length (m_tris (snd (snd kom) : mesh))) xs) + length xs <= q).
  { induction xs as [|[i [off m]] xs IH]; intros b hh r k Hi TT Ho Hl He; cbn [forM_list].
    - exists hh, r, k, 0. split; auto. split; [apply kept_refl|]. split; auto. split; [cbn; lia|]. split; [lia|cbn; lia].
    - cbn [map length seq fst] in Hi. inversion Hi as [[Hi1 Hi2]]. subst i. cbn [length] in Hl.
      set (rows := map (fun t => [Int (t0 t + off); Int (t1 t + off); Int (t2 t + off)]) (m_tris m)).
      assert (LC : length rows = length (m_tris m)) by (unfold rows; apply map_length).
      destruct (filled_list (length (m_tris m)) rows hh TT) as [h2 [E2 [_ [K2 [[r2 [k2 O2]] [L2 [X2 N2]]]]]]]; [lia|].
      destruct (list_new (length (m_tris m)) hh) as [my hn] eqn:EL. assert (Hl' : my = length hh /\ hn = snd (list_new (length (m_tris m)) hh)) by (rewrite EL; inversion EL; auto). destruct Hl' as [-> Hh]. cbn [snd] in E2.
      rewrite E2. cbn [bind]. destruct (K2 l (S r) k Ho) as [[|r3] [k3 [O3 [Lr3 Kk3]]]]; [lia|]. rewrite Kk3 in O3 by (intros []). clear k3 Kk3.
      assert (Slot : nth_error k b = Some None) by (apply He; lia).
      destruct (set_spec h2 l b (length hh) (S r3) k O3 Slot) as [h3 [E3 [K3 [O4 [X3 [N3 L3]]]]]]. rewrite E3. cbn [bind].
      assert (KK : kept (eq l) hh h3). { eapply kept_trans; [|exact K3]. eapply kept_weaken; [|exact K2]. intros x []. }
      destruct (IH (S b) h3 r3 (upd k b (Some (length hh)))) as [h4 [r4 [k4 [q [E4 [K4 [O5 [X4 [N4 Lq]]]]]]]]]; auto.
      + eapply kept_table; eauto.
      + rewrite upd_length. lia.
      + intros j Hj Hlj. rewrite upd_length in Hlj. rewrite nth_error_upd_other by lia. apply He; lia.
      + exists h4, r4, k4, (q + S (mass small rows)). split; auto. split; [eapply kept_trans; eauto|]. split; auto.
        assert (W : weight rows = 3 * length (m_tris m)). { rewrite (weight_const 3), LC; auto. intros row Hr. apply in_map_iff in Hr. destruct Hr as [t [<- _]]. reflexivity. }
        assert (Q : length (m_tris m) <= mass small rows). { rewrite <- LC. pose proof (mass_ge small 0 rows) as G. rewrite Nat.mul_1_l in G. apply G. intros; lia. }
        cbn [map list_sum fold_right length snd]. unfold list_sum in *.
        split; [rewrite X4, X3, X2, W; lia|]. split; [rewrite N4, N3, N2; lia|lia]. }
  destruct (G (layers o A ms) 0 h1 0 (repeat None (length ms))) as [h' [r' [k' [q [E [K [O [X [N Lq]]]]]]]]].
  - rewrite layers_len. apply layers_index.
  - eapply kept_table; eauto.
  - exact O1.
  - rewrite layers_len, repeat_length. lia.
  - intros i _ Hi. rewrite repeat_length in Hi. apply nth_error_repeat. auto.
  - rewrite E. cbn [bind]. exists h', q. split; auto.
    assert (TC : list_sum (map (fun kom => length (m_tris (snd (snd kom) : mesh))) (layers o A ms)) = tri_count ms).
    { rewrite <- (map_map (fun kom : nat * (nat * mesh) => snd (snd kom)) (fun m => length (m_tris m))), layers_mesh. unfold tri_count. rewrite total_sum. reflexivity. }
    rewrite TC, layers_len in *. split; [|lia]. split; auto. split; [eapply kept_fresh; eauto|]. split; [eauto|]. split; [eapply obj_lt; eauto|].
    assert (Z0 : forall n, length (filter (fun s : option nat => match s with Some _ => true | None => false end) (repeat None n)) = 0) by (induction n; cbn; auto).
    split; [rewrite X, X1; cbn [owned]; rewrite Z0; lia|rewrite N, N1; lia].
Qed.
End Lists.

(** ** dropping a tuple of three objects that have another reference *)
Lemma dec_one : forall f h x r k, obj h x (S (S r)) k -> exists h', decref_at (S f) h x = Ok h' /\ obj h' x (S r) k /\
  (forall y s j, y <> x -> obj h y s j -> obj h' y s j) /\ outside_references h' = (outside_references h - 1)%Z /\ objects h' = objects h.
Proof.
  intros f h x r k H. assert (Lx : x < length h) by (eapply obj_lt; eauto). cbn [decref_at]. unfold get. unfold obj in H. rewrite H. cbn [bind]. rewrite set_lt by auto.
  eexists. split; [reflexivity|]. split; [apply obj_upd_at; auto|]. split; [intros y s j N Hy; apply obj_upd_at; auto|]. split; [rewrite (out_upd _ _ _ _ H); cbn [owned]; lia|eapply obj_upd; eauto].
Qed.
Lemma drop_spec : forall h t a b c ra rb rc ka kb kc, obj h t 1 [Some a; Some b; Some c] -> obj h a (S (S ra)) ka -> obj h b (S (S rb)) kb -> obj h c (S (S rc)) kc ->
  t <> a -> t <> b -> t <> c -> a <> b -> a <> c -> b <> c ->
  exists h', decref h t = Ok h' /\ (forall x, live h x -> x <> t -> live h' x) /\ outside_references h' = (outside_references h - 1)%Z /\ S (objects h') = objects h.
Proof.
  intros h t a b c ra rb rc ka kb kc Ht Ha Hb Hc Nta Ntb Ntc Nab Nac Nbc. assert (Lt : t < length h) by (eapply obj_lt; eauto). unfold decref.
  destruct (length h) as [|f] eqn:EL; [lia|]. remember (S f) as f1 eqn:Ef. cbn [decref_at]. unfold get. unfold obj in Ht. rewrite Ht. cbn [bind]. rewrite set_lt by lia. cbn [bind forM_list]. subst f1.
  set (h0 := upd h t None). assert (U : forall y s j, y <> t -> obj h y s j -> obj h0 y s j) by (intros; apply obj_upd_at; auto; lia).
  destruct (dec_one f h0 a ra ka) as [h1 [E1 [O1 [U1 [X1 N1]]]]]; [apply U; auto|]. rewrite E1. cbn [bind].
  destruct (dec_one f h1 b rb kb) as [h2 [E2 [O2 [U2 [X2 N2]]]]]; [apply U1; auto|]. rewrite E2. cbn [bind].
  destruct (dec_one f h2 c rc kc) as [h3 [E3 [O3 [U3 [X3 N3]]]]]; [apply U2; auto|]. rewrite E3. cbn [bind]. exists h3. split; auto. split; [|split].
  - intros x [r [k Hx]] Nx. destruct (Nat.eq_dec x a) as [->|Na]; [exists ra, ka; apply U3; auto|]. destruct (Nat.eq_dec x b) as [->|Nb]; [exists rb, kb; apply U3; auto|].
    destruct (Nat.eq_dec x c) as [->|Nc]; [exists rc, kc; auto|]. exists r, k. apply U3; auto.
  - rewrite X3, X2, X1. unfold h0. rewrite (out_upd _ _ _ _ Ht). cbn. lia.
  - rewrite N3, N2, N1. unfold h0. apply (obj_free h t 1 _ Ht).
Qed.

Section Calls.
Variable small : nat -> option nat.
Variable o : Ops.
Variable A : Type.
Notation mesh := (mesh o A).
(** r is a result made by a call; dropping it frees nothing but the tuple itself *)
Definition leaks (h : heap) (run : res (nat * heap)) (refs objs : nat) : Prop :=
  exists r h1 h2, run = Ok (r, h1) /\ ~ live h r /\ decref h1 r = Ok h2 /\ (forall x, live h x -> live h2 x) /\ (forall x, live h1 x -> x <> r -> live h2 x) /\
    outside_references h2 = (outside_references h + Z.of_nat refs)%Z /\ objects h + objs <= objects h2.
Lemma pack3_leaks : forall h ha hb hc a b c wa wb wc qa qb qc refs objs, makes h a ha wa qa -> makes ha b hb wb qb -> makes hb c hc wc qc ->
  refs = 3 + wa + wb + wc -> objs <= 3 + qa + qb + qc -> forall l, (l = [a; b; c] \/ l = [a; c; b]) -> leaks h (tuple_pack l hc) refs objs.
Proof.
  intros h ha hb hc a b c wa wb wc qa qb qc refs objs [Ea [Ka [[ra [ka Oa]] [La [Xa Na]]]]] [Eb [Kb [[rb [kb Ob]] [Lb [Xb Nb]]]]] [Ec [Kc [[rc [kc Oc]] [Lc [Xc Nc]]]]] Hr Ho l Hl.
  destruct (kept_trans _ _ _ _ Kb Kc a _ _ Oa) as [[|ra2] [ka2 [Oa2 [Lra _]]]]; [lia|]. destruct (Kc b _ _ Ob) as [[|rb2] [kb2 [Ob2 [Lrb _]]]]; [lia|].
  assert (EX : forall y, In y l -> exists r k, obj hc y r k) by (intros y Hy; destruct Hl as [-> | ->]; cbn in Hy; repeat (destruct Hy as [<-|Hy]; [eauto|]); contradiction).
  destruct (pack_spec l hc EX) as [h1 [E1 [K1 [O1 [U1 [X1 [N1 L1]]]]]]].
  assert (IA : In a l /\ In b l /\ In c l) by (destruct Hl as [-> | ->]; cbn; intuition auto). destruct IA as [IA [IB IC]].
  destruct (U1 a _ _ IA Oa2) as [[|[|xa]] [Oa3 La3]]; [lia|lia|]. destruct (U1 b _ _ IB Ob2) as [[|[|xb]] [Ob3 Lb3]]; [lia|lia|]. destruct (U1 c _ _ IC Oc) as [[|[|xc]] [Oc3 Lc3]]; [lia|lia|].
  assert (LB : length ha <= length hb). { subst b. apply Nat.lt_le_incl. exact Lb. }
  assert (LCC : length hb <= length hc). { subst c. apply Nat.lt_le_incl. exact Lc. }
  assert (D : exists h2, decref h1 (length hc) = Ok h2 /\ (forall x, live h1 x -> x <> length hc -> live h2 x) /\ outside_references h2 = (outside_references h1 - 1)%Z /\ S (objects h2) = objects h1).
  { destruct Hl as [-> | ->]; cbn [map] in O1.
    - apply (drop_spec h1 (length hc) a b c xa xb xc ka2 kb2 kc); auto; lia.
    - apply (drop_spec h1 (length hc) a c b xa xc xb ka2 kc kb2); auto; lia. }
  destruct D as [h2 [E2 [U2 [X2 N2]]]].
  assert (KK : kept none h h1) by (eapply kept_trans; [exact Ka|eapply kept_trans; [exact Kb|eapply kept_trans; [exact Kc|exact K1]]]).
  exists (length hc), h1, h2. split; auto. split; [|split; [auto|split; [|split; [auto|split]]]].
  - intros [r [k H]]. assert (length hc < length h) by (eapply obj_lt; exact H). lia.
  - intros x Hx. apply U2; [eapply kept_live; eauto|]. intros ->. destruct Hx as [r [k H]]. assert (length hc < length h) by (eapply obj_lt; exact H). lia.
  - rewrite X2, X1, Xc, Xb, Xa. lia.
  - lia.
Qed.
Lemma solve_leaks : forall h ms nV nP, table_ready small h -> node_count ms <= nV ->
  leaks h (solve_objects small o A nV nP ms h) (3 + 4 * node_count ms + 2 * nP + 4 * tri_count ms) (3 + 4 * node_count ms + 2 * nP + tri_count ms).
Proof.
  intros h ms nV nP TR LV. unfold solve_objects. destruct (voltage_spec small o A ms h nV TR LV) as [h1 [q1 [E1 [M1 Q1]]]]. rewrite E1. cbn [bind].
  assert (K1 : kept none h h1) by apply M1. assert (TR1 := kept_table _ _ _ _ K1 TR).
  destruct (power_spec small nP h1 TR1) as [h2 [q2 [E2 [M2 Q2]]]]. rewrite E2. cbn [bind].
  assert (K2 : kept none h1 h2) by apply M2. assert (TR2 := kept_table _ _ _ _ K2 TR1).
  destruct (triangle_spec small o A ms h2 TR2) as [h3 [q3 [E3 [M3 Q3]]]]. rewrite E3. cbn [bind].
  eapply (pack3_leaks h h1 h2 h3); eauto; lia.
Qed.
Lemma generate_leaks : forall h ms, table_ready small h ->
  leaks h (generate_objects small o A ms h) (3 + 2 * node_count ms + 3 * tri_count ms) (3 + 3 * node_count ms + tri_count ms + length ms).
Proof.
  intros h ms TR. unfold generate_objects. destruct (fresh h []) as [s h0] eqn:EF. destruct (fresh_spec h []) as [K0 [O0 [X0 [N0 L0]]]]. rewrite EF in *. cbn [snd] in *.
  assert (Es : s = length h) by (unfold fresh in EF; inversion EF; auto). subst s.
  assert (M0 : makes h (length h) h0 0 0). { split; auto. split; auto. split; [eauto|]. split; [lia|]. split; [rewrite X0; cbn; lia|lia]. }
  assert (TR0 := kept_table _ _ _ _ K0 TR).
  destruct (layer_tris_spec small o A ms h0 TR0) as [h1 [q1 [E1 [M1 Q1]]]]. rewrite E1. cbn [bind].
  assert (K1 : kept none h0 h1) by apply M1. assert (TR1 := kept_table _ _ _ _ K1 TR0).
  destruct (vertex_spec small o A ms h1 TR1) as [h2 [q2 [E2 [M2 Q2]]]]. rewrite E2. cbn [bind].
  eapply (pack3_leaks h h0 h1 h2); eauto; lia.
Qed.
End Calls.
