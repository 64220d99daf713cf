(** Proofs for property C84. *)
From Coq Require Import String.
From Coq Require Import List Arith ZArith Bool Lia.
From Verif Require Import Base AlgebraModel SolversModel GeometryModel DrawingModel MeshModel CarveModel CarveSpec.
Import ListNotations.

Lemma get_nth : forall X (l : list X) i x, nth_error l i = Some x -> get l i = Ok x.
Proof. intros X l i x E. unfold get. rewrite E. reflexivity. Qed.
Lemma set_lt : forall X (l : list X) i x, i < length l -> set l i x = Ok (upd l i x).
Proof. intros X l i x H. unfold set. apply Nat.ltb_lt in H. rewrite H. reflexivity. Qed.
Lemma upd_nth : forall X (l : list X) i j x d, i < length l -> nth j (upd l i x) d = if Nat.eqb j i then x else nth j l d.
Proof.
  intros X l. induction l as [|y l IH]; intros i j x d H; cbn in H; [lia|]. destruct i as [|i]; cbn [upd].
  - destruct j; reflexivity.
  - destruct j as [|j]; cbn [nth]; auto. rewrite IH by lia. reflexivity.
Qed.
Lemma upd_len : forall X (l : list X) i x, length (upd l i x) = length l.
Proof. intros X l. induction l as [|y l IH]; intros [|i] x; cbn; auto. Qed.

Lemma nodup_app : forall (a b : list nat), NoDup a -> NoDup b -> (forall x, In x a -> In x b -> False) -> NoDup (a ++ b).
Proof.
  induction a as [|x a IH]; intros b Ha Hb D; cbn; auto. inversion Ha as [|? ? H1 H2]; subst. constructor.
  - rewrite in_app_iff. intros [C|C]; [auto|]. eapply D; [left; reflexivity|exact C].
  - apply IH; auto. intros y Y1 Y2. eapply D; [right; exact Y1|exact Y2].
Qed.
Section Flood.
Variable m : tmesh.
Hypothesis WF : well_formed m.
Notation n := (length m).
(** the flags are those of the triangles in p *)
Definition flags_of (inf : list bool) (p : nat -> Prop) : Prop := length inf = n /\ forall u, u < n -> (nth u inf false = true <-> p u).

Lemma visit_spec : forall t ss, t < n -> (forall u w, In (Some u, w) ss -> u < n /\ u <> t) -> forall inf q p, flags_of inf p ->
  exists inf' add, visit ss inf q = Ok (inf', q ++ add) /\ NoDup add /\
    (forall u, In u add <-> ~ p u /\ In (Some u, false) ss) /\ flags_of inf' (fun u => p u \/ In u add).
Proof.
  intros t ss Ht. induction ss as [|[nb w] ss IH]; intros W inf q p F; cbn [visit].
  - exists inf, []. rewrite app_nil_r. split; auto. split; [constructor|]. split; [intros u; split; [intros []|intros [_ []]]|].
    destruct F as [F1 F2]. split; auto. intros u Hu. rewrite F2 by auto. cbn. tauto.
  - assert (W' : forall u w, In (Some u, w) ss -> u < n /\ u <> t) by (intros; eapply W; right; eauto).
    destruct nb as [u|].
    2:{ destruct (IH W' inf q p F) as [inf' [add [E [ND [HA HF]]]]]. exists inf', add. split; auto. split; auto. split; auto.
        intros v. rewrite HA. split; intros [H1 H2]; split; auto; [right; auto|]. destruct H2 as [H2|H2]; [discriminate H2|auto]. }
    destruct (W u w (or_introl eq_refl)) as [Hu Nt]. destruct F as [F1 F2].
    destruct (nth_error inf u) as [b|] eqn:Eb; [|apply nth_error_None in Eb; lia].
    rewrite (get_nth _ _ _ _ Eb). cbn [bind]. assert (Bn : nth u inf false = b) by (apply nth_error_nth; auto).
    destruct (b || w) eqn:X.
    + destruct (IH W' inf q p (conj F1 F2)) as [inf' [add [E [ND [HA HF]]]]]. exists inf', add. split; auto. split; auto. split; auto.
      intros v. rewrite HA. split; intros [H1 H2]; split; auto; [right; auto|]. destruct H2 as [H2|H2]; auto.
      injection H2 as -> ->. rewrite orb_false_r in X. subst b. exfalso. apply H1. apply F2; auto.
    + apply orb_false_iff in X as [-> ->].
      rewrite set_lt by lia. cbn [bind].
      assert (F' : flags_of (upd inf u true) (fun v => p v \/ v = u)).
      { split; [rewrite upd_len; auto|]. intros v Hv. rewrite upd_nth by lia. destruct (Nat.eqb_spec v u); [tauto|]. rewrite F2 by auto. tauto. }
      destruct (IH W' _ (q ++ [u]) _ F') as [inf' [add [E [ND [HA HF]]]]].
      exists inf', (u :: add). rewrite <- app_assoc in E. split; auto. split; [constructor; auto|].
      * intros C. apply HA in C. tauto.
      * split.
        -- intros v. cbn [In]. rewrite HA. split.
           ++ intros [<-|[H1 H2]]; [|split; [tauto|auto]]. split; [|auto]. intros C. apply F2 in C; auto. congruence.
           ++ intros [H1 [H2|H2]]; [injection H2 as ->; auto|]. destruct (Nat.eq_dec v u); [auto|right; split; [tauto|auto]].
        -- destruct HF as [HF1 HF2]. split; auto. intros v Hv. rewrite HF2 by auto. cbn [In]. split; intros; intuition.
Qed.

Lemma spread_inv : forall start fuel inf seen todo,
  NoDup (seen ++ todo) -> (forall t, In t (seen ++ todo) -> t < n) -> n <= length seen + fuel ->
  flags_of inf (fun u => In u (seen ++ todo)) ->
  (forall t, In t (seen ++ todo) -> exists s, In s start /\ reach m s t) -> (forall s, In s start -> In s (seen ++ todo)) ->
  (forall t u, In t seen -> open_side m t u -> In u (seen ++ todo)) ->
  exists inf' pool, spread fuel m inf seen todo = Ok (inf', pool) /\ NoDup pool /\ (forall t, In t pool -> t < n) /\
    (forall u, In u pool <-> exists s, In s start /\ reach m s u).
Proof.
  intros start fuel. induction fuel as [|f IH]; intros inf seen todo ND LT FU FL RE ST CL.
  - destruct todo as [|t todo]; cbn [spread].
    + exists inf, seen. rewrite app_nil_r in *. split; auto. split; auto. split; auto. intros u. split; [auto|].
      intros [s [H1 H2]]. induction H2 as [t|t u v H2 IH2 H3]; [auto|]. eapply CL; [|exact H3]. auto.
    + exfalso. assert (L : length (seen ++ t :: todo) <= n).
      { rewrite <- (seq_length n 0). apply NoDup_incl_length; auto. intros x Hx. apply in_seq. split; [lia|]. cbn. auto. }
      rewrite app_length in L. cbn in L. lia.
  - destruct todo as [|t todo]; cbn [spread].
    + exists inf, seen. rewrite app_nil_r in *. split; auto. split; auto. split; auto. intros u. split; [auto|].
      intros [s [H1 H2]]. induction H2 as [t|t u v H2 IH2 H3]; [auto|]. eapply CL; [|exact H3]. auto.
    + assert (Ht : t < n) by (apply LT, in_or_app; right; left; auto). destruct FL as [F1 F2].
      rewrite set_lt by lia. cbn [bind]. destruct (nth_error m t) as [ss|] eqn:Es; [|apply nth_error_None in Es; lia].
      rewrite (get_nth _ _ _ _ Es). cbn [bind].
      assert (F' : flags_of (upd inf t false) (fun u => In u (seen ++ todo))).
      { split; [rewrite upd_len; auto|]. intros u Hu. rewrite upd_nth by lia. apply NoDup_remove in ND as [ND1 ND2]. destruct (Nat.eqb_spec u t) as [->|N].
        - split; [discriminate|intros C; contradiction].
        - rewrite F2 by auto. rewrite !in_app_iff. cbn [In]. split; intros; intuition congruence. }
      destruct (visit_spec t ss Ht (fun u w => WF t ss u w Es) _ todo _ F') as [inf' [add [E [ND' [HA HF]]]]].
      rewrite E. cbn [bind]. destruct HF as [HF1 HF2]. rewrite set_lt by lia. cbn [bind].
      assert (NA : ~ In t add). { intros C. apply HA in C as [_ C]. destruct (WF t ss t false Es C) as [_ C']. apply C'. auto. }
      assert (EQ : forall u, In u ((seen ++ [t]) ++ todo ++ add) <-> In u (seen ++ t :: todo) \/ In u add) by (intros u; rewrite !in_app_iff; cbn [In]; tauto).
      apply IH.
      * rewrite app_assoc. apply nodup_app; [rewrite <- app_assoc; exact ND|auto|]. intros u H1 H2.
        rewrite <- app_assoc in H1. apply in_app_or in H1 as [H1|[<-|H1]]; [|exact (NA H2)|]; apply HA in H2 as [H2 _]; apply H2, in_or_app; auto.
      * intros u Hu. apply EQ in Hu as [Hu|Hu]; auto. apply HA in Hu as [_ Hu]. eapply WF; eauto.
      * rewrite app_length. cbn. lia.
      * split; [rewrite upd_len; auto|]. intros u Hu. rewrite upd_nth by lia. rewrite EQ, in_app_iff. cbn [In]. destruct (Nat.eqb_spec u t) as [->|N]; [tauto|].
        rewrite HF2 by auto. rewrite in_app_iff. split; intros; intuition congruence.
      * intros u Hu. apply EQ in Hu as [Hu|Hu]; auto. apply HA in Hu as [_ Hu]. destruct (RE t) as [s [S1 S2]]; [apply in_or_app; right; left; auto|].
        exists s. split; auto. eapply reach_step; eauto. exists ss. auto.
      * intros s Hs. apply EQ. left. auto.
      * intros u v Hu O. apply EQ. apply in_app_or in Hu as [Hu|[<-|[]]]; [left; eapply CL; eauto|].
        destruct O as [ss' [O1 O2]]. rewrite Es in O1. injection O1 as <-.
        assert (D : In v (seen ++ todo) \/ ~ In v (seen ++ todo)) by (destruct (in_dec Nat.eq_dec v (seen ++ todo)); auto).
        destruct D as [D|D]; [left; rewrite in_app_iff in *; cbn [In]; tauto|right; apply HA; auto].
Qed.
End Flood.

Lemma reach_trans : forall m s t u, reach m s t -> reach m t u -> reach m s u.
Proof. intros m s t u H1 H2. induction H2 as [t|t u v H2 IH H3]; auto. eapply reach_step; [apply IH; auto|exact H3]. Qed.
Lemma spread_start : forall m, well_formed m -> forall start inf, NoDup start -> (forall t, In t start -> t < length m) -> flags_of m inf (fun u => In u start) ->
  exists inf' pool, spread (length m) m inf [] start = Ok (inf', pool) /\ NoDup pool /\ (forall t, In t pool -> t < length m) /\
    (forall u, In u pool <-> exists s, In s start /\ reach m s u).
Proof.
  intros m WF start inf ND LT FL. apply spread_inv; auto.
  - intros t Ht. exists t. split; auto. constructor.
  - intros t u [].
Qed.

Section Cut.
Variable m : tmesh.
Variable dead : list nat.
Hypothesis WF : well_formed m.
Hypothesis CL : forall t u, In t dead -> open_side m t u -> In u dead.
Lemma cut_len : length (cut dead m) = length m.
Proof. unfold cut. apply map_length. Qed.
Lemma cut_nth : forall t ss, nth_error (cut dead m) t = Some ss <-> exists ss0, nth_error m t = Some ss0 /\
  ss = map (fun s : side => match fst s with Some u => if existsb (Nat.eqb u) dead then (None, snd s) else s | None => s end) ss0.
Proof.
  intros t ss. unfold cut. rewrite nth_error_map. destruct (nth_error m t) as [ss0|]; cbn; split.
  - intros E. injection E as <-. exists ss0. auto.
  - intros [x [E ->]]. injection E as ->. reflexivity.
  - discriminate.
  - intros [x [E _]]. discriminate E.
Qed.
Lemma dead_in : forall u, existsb (Nat.eqb u) dead = true <-> In u dead.
Proof. intros u. rewrite existsb_exists. split; [intros [x [H1 H2]]; apply Nat.eqb_eq in H2; subst; auto|]. intros H. exists u. split; auto. apply Nat.eqb_refl. Qed.
Lemma cut_side : forall ss0 u w, In (Some u, w) (map (fun s : side => match fst s with Some u => if existsb (Nat.eqb u) dead then (None, snd s) else s | None => s end) ss0) <->
  In (Some u, w) ss0 /\ ~ In u dead.
Proof.
  intros ss0 u w. rewrite in_map_iff. split.
  - intros [[[v|] x] [E H]]; cbn [fst snd] in E; [|discriminate E]. destruct (existsb (Nat.eqb v) dead) eqn:X; [discriminate E|]. injection E as -> ->. split; auto.
    intros C. apply dead_in in C. congruence.
  - intros [H N]. exists (Some u, w). split; auto. cbn [fst]. destruct (existsb (Nat.eqb u) dead) eqn:X; auto. apply dead_in in X. contradiction.
Qed.
Lemma cut_open : forall t u, open_side (cut dead m) t u <-> open_side m t u /\ ~ In u dead.
Proof.
  intros t u. split.
  - intros [ss [H1 H2]]. apply cut_nth in H1 as [ss0 [H1 ->]]. apply cut_side in H2 as [H2 H3]. split; auto. exists ss0. auto.
  - intros [[ss0 [H1 H2]] H3]. eexists. split; [apply cut_nth; exists ss0; split; [exact H1|reflexivity]|]. apply cut_side. auto.
Qed.
Lemma cut_wf : well_formed (cut dead m).
Proof. intros t ss u w H1 H2. rewrite cut_len. apply cut_nth in H1 as [ss0 [H1 ->]]. apply cut_side in H2 as [H2 _]. eapply WF; eauto. Qed.
Lemma dead_reach : forall t u, In t dead -> reach m t u -> In u dead.
Proof. intros t u H R. induction R as [t|t u v R IH O]; auto. eapply CL; [|exact O]. auto. Qed.
Lemma cut_reach : forall s t, ~ In t dead -> (reach (cut dead m) s t <-> reach m s t).
Proof.
  intros s t N. split; intros H.
  - induction H as [t|t u v H IH O]; [constructor|]. apply cut_open in O as [O1 O2]. eapply reach_step; [apply IH|exact O1]. intros C. apply N. eapply CL; eauto.
  - induction H as [t|t u v H IH O]; [constructor|]. eapply reach_step; [apply IH|apply cut_open; split; auto]. intros C. apply N. eapply CL; eauto.
Qed.
Lemma cut_alive : forall s t, ~ In s dead -> reach (cut dead m) s t -> ~ In t dead.
Proof. intros s t N H. induction H as [t|t u v H IH O]; auto. apply cut_open in O as [_ O]. auto. Qed.

Variable V : Type.
Lemma paint_spec : forall (a : V) pool at_, (forall t, In t pool -> t < length at_) -> exists at', paint V pool a at_ = Ok at' /\ length at' = length at_ /\
  forall t d, (In t pool -> nth t at' d = a) /\ (~ In t pool -> nth t at' d = nth t at_ d).
Proof.
  intros a pool. induction pool as [|x pool IH]; intros at_ H; cbn [paint].
  - exists at_. split; auto. split; auto. intros t d. split; [intros []|auto].
  - rewrite set_lt by (apply H; left; auto). cbn [bind]. destruct (IH (upd at_ x a)) as [at' [E [L S]]]; [intros t Ht; rewrite upd_len; apply H; right; auto|].
    exists at'. split; auto. rewrite upd_len in L. split; auto. intros t d. destruct (S t d) as [S1 S2]. assert (Hx : x < length at_) by (apply H; left; auto).
    destruct (in_dec Nat.eq_dec t pool) as [I|I]; [rewrite S1 by auto; split; [auto|intros C; exfalso; apply C; right; auto]|].
    rewrite S2 by auto. rewrite upd_nth by auto. destruct (Nat.eqb_spec t x) as [->|N]; split; auto.
    + intros C. exfalso. apply C. left. auto.
    + intros [C|C]; [congruence|contradiction].
Qed.
Lemma seeds_spec : forall (l : list (option nat * V)) at_, length at_ = length m -> (forall t a, In (Some t, a) l -> t < length m) ->
  exists at', seeds_loop V (cut dead m) dead l at_ = Ok at' /\ length at' = length m /\
    forall t d, t < length m -> ~ In t dead ->
      (exists i a, seeded m l i a t /\ (forall j b, i < j -> ~ seeded m l j b t) /\ nth t at' d = a) \/
      ((forall i a, ~ seeded m l i a t) /\ nth t at' d = nth t at_ d).
Proof.
  intros l. induction l as [|[loc a] l IH]; intros at_ L B; cbn [seeds_loop].
  - exists at_. split; auto. split; auto. intros t d _ _. right. split; auto. intros i a [s [E _]]. destruct i; discriminate E.
  - assert (B' : forall t b, In (Some t, b) l -> t < length m) by (intros; eapply B; right; eauto).
    assert (SH : forall i b t, seeded m ((loc, a) :: l) (S i) b t <-> seeded m l i b t) by (intros; unfold seeded; cbn [nth_error]; tauto).
    assert (SK : forall at', length at' = length m -> (forall t d, t < length m -> ~ In t dead ->
        (exists i a, seeded m l i a t /\ (forall j b, i < j -> ~ seeded m l j b t) /\ nth t at' d = a) \/ ((forall i a, ~ seeded m l i a t) /\ nth t at' d = nth t at_ d)) ->
        (forall t, t < length m -> ~ In t dead -> forall b, ~ seeded m ((loc, a) :: l) 0 b t) ->
        forall t d, t < length m -> ~ In t dead ->
        (exists i b, seeded m ((loc, a) :: l) i b t /\ (forall j b, i < j -> ~ seeded m ((loc, a) :: l) j b t) /\ nth t at' d = b) \/
        ((forall i b, ~ seeded m ((loc, a) :: l) i b t) /\ nth t at' d = nth t at_ d)).
    { intros at' L' H N t d Ht Nt. destruct (H t d Ht Nt) as [[i [b [H1 [H2 H3]]]]|[H1 H2]].
      - left. exists (S i), b. split; [apply SH; auto|]. split; auto. intros [|j] c Hj; [lia|]. rewrite SH. apply H2. lia.
      - right. split; auto. intros [|i] b; [auto|]. rewrite SH. auto. }
    destruct loc as [s|].
    2:{ destruct (IH at_ L B') as [at' [E [L' H]]]. exists at'. split; auto. split; auto. apply SK; auto. intros t _ _ b [s [X _]]. discriminate X. }
    destruct (existsb (Nat.eqb s) dead) eqn:X.
    { destruct (IH at_ L B') as [at' [E [L' H]]]. exists at'. split; auto. split; auto. apply SK; auto. intros t _ Nt b [s' [Y1 Y2]]. injection Y1 as <- _.
      apply Nt. eapply dead_reach; [apply dead_in; exact X|exact Y2]. }
    assert (Ns : ~ In s dead) by (intros C; apply dead_in in C; congruence).
    assert (Hs : s < length m) by (eapply B; left; reflexivity).
    rewrite cut_len. rewrite set_lt by (rewrite repeat_length; auto). cbn [bind].
    destruct (spread_start (cut dead m) cut_wf [s] (upd (repeat false (length m)) s true)) as [inf' [pool [E [ND [LT HP]]]]].
    { constructor; [intros []|constructor]. }
    { intros t [<-|[]]. rewrite cut_len. auto. }
    { split; [rewrite upd_len, repeat_length, cut_len; auto|]. intros u Hu. rewrite upd_nth by (rewrite repeat_length; auto). cbn [In].
      destruct (Nat.eqb_spec u s) as [->|N]; [tauto|]. rewrite nth_repeat. split; [discriminate|]. intros [C|[]]. congruence. }
    rewrite cut_len in E. rewrite E. cbn [bind].
    destruct (paint_spec a pool at_) as [at1 [E1 [L1 P1]]]. { intros t Ht. rewrite L, <- cut_len. auto. }
    rewrite E1. cbn [bind]. destruct (IH at1) as [at' [E2 [L2 H2]]]; [congruence|auto|]. exists at'. split; auto. split; auto.
    intros t d Ht Nt. destruct (P1 t d) as [Pin Pout].
    assert (PR : In t pool <-> reach m s t).
    { rewrite HP. rewrite <- (cut_reach s t Nt). split; [intros [s' [[<-|[]] R]]; auto|intros R; exists s; split; [left|]; auto]. }
    destruct (H2 t d Ht Nt) as [[i [b [S1 [S2 S3]]]]|[S1 S2]].
    + left. exists (S i), b. split; [apply SH; auto|]. split; auto. intros [|j] c Hj; [lia|]. rewrite SH. apply S2. lia.
    + destruct (in_dec Nat.eq_dec t pool) as [I|I].
      * left. exists 0, a. split; [exists s; split; [reflexivity|apply PR; auto]|]. split; [intros [|j] c Hj; [lia|]; rewrite SH; auto|]. rewrite S2. auto.
      * right. split; [|rewrite S2; auto]. intros [|i] b; [|rewrite SH; auto]. intros [s' [Y1 Y2]]. injection Y1 as <- _. apply I, PR. auto.
Qed.
End Cut.

Lemma exposed_iff : forall ss, exposed ss = true <-> In (None, false) ss.
Proof.
  intros ss. unfold exposed. rewrite existsb_exists. split.
  - intros [[[u|] [|]] [H1 H2]]; try discriminate H2. auto.
  - intros H. exists (None, false). auto.
Qed.
Lemma hull_iff : forall m t, In t (hull_pool m) <-> open_hull m t.
Proof.
  intros m t. unfold hull_pool. rewrite filter_In, in_seq. split.
  - intros [_ H]. destruct (nth_error m t) as [ss|] eqn:E; [|discriminate H]. exists ss. split; auto. apply exposed_iff. auto.
  - intros [ss [E H]]. rewrite E. split; [|apply exposed_iff; auto]. assert (t < length m) by (apply nth_error_Some; congruence). lia.
Qed.
Lemma carve_spec : forall V (zero : V) m l, well_formed m -> (forall t a, In (Some t, a) l -> t < length m) ->
  exists dead at_, carve V zero m l = Ok (dead, at_) /\ NoDup dead /\ (forall t, In t dead <-> outside m t) /\
    (l = [] -> at_ = None) /\
    (l <> [] -> exists at', at_ = Some at' /\ length at' = length m /\ forall t d, t < length m -> ~ outside m t ->
      (exists i a, seeded m l i a t /\ (forall j b, i < j -> ~ seeded m l j b t) /\ nth t at' d = a) \/ ((forall i a, ~ seeded m l i a t) /\ nth t at' d = zero)).
Proof.
  intros V zero m l WF B. unfold carve. cbn [bind].
  destruct (spread_start m WF (hull_pool m) (map exposed m)) as [inf' [dead [E [ND [LT HD]]]]].
  { unfold hull_pool. apply NoDup_filter, seq_NoDup. }
  { intros t Ht. apply hull_iff in Ht as [ss [Ht _]]. apply nth_error_Some. congruence. }
  { split; [apply map_length|]. intros u Hu. rewrite hull_iff. destruct (nth_error m u) as [ss|] eqn:Es; [|apply nth_error_None in Es; lia].
    rewrite (nth_error_nth (map exposed m) u false (x := exposed ss)) by (rewrite nth_error_map, Es; reflexivity).
    rewrite exposed_iff. split; [intros H; exists ss; auto|intros [ss' [H1 H2]]; congruence]. }
  assert (OD : forall t, In t dead <-> outside m t) by (intros t; rewrite HD; split; intros [s [H1 H2]]; exists s; split; auto; apply hull_iff; auto).
  rewrite E. cbn [bind].
  assert (CL : forall t u, In t dead -> open_side m t u -> In u dead).
  { intros t u Ht O. apply HD in Ht as [s [H1 H2]]. apply HD. exists s. split; auto. eapply reach_step; eauto. }
  destruct l as [|s0 l0] eqn:El.
  - exists dead, None. split; auto. split; auto. split; auto. split; auto. intros C. congruence.
  - rewrite <- El in *. set (g := fun s : option nat * V => _). 
    destruct (seeds_spec m dead WF CL V (map g l) (repeat zero (length m))) as [at' [E' [L' H]]].
    { apply repeat_length. }
    { intros t a H. apply in_map_iff in H as [[[u|] b] [H1 H2]]; unfold g in H1; cbn [fst snd] in H1; [|discriminate H1].
      destruct (existsb (Nat.eqb u) (hull_pool m)); [discriminate H1|]. injection H1 as -> ->. eapply B; eauto. }
    rewrite E'. cbn [bind]. exists dead, (Some at'). split; auto. split; auto. split; auto. split; [intros C; rewrite El in C; discriminate C|]. intros _. exists at'. split; auto. split; auto.
    intros t d Ht Nt. assert (Nd : ~ In t dead) by (rewrite OD; auto).
    assert (SG : forall i a, seeded m (map g l) i a t <-> seeded m l i a t).
    { intros i a. unfold seeded. split; intros [s [H1 H2]]; exists s; split; auto.
      - rewrite nth_error_map in H1. destruct (nth_error l i) as [[[u|] b]|]; cbn in H1; try discriminate H1.
        destruct (existsb (Nat.eqb u) (hull_pool m)); [discriminate H1|]. congruence.
      - rewrite nth_error_map, H1. cbn. destruct (existsb (Nat.eqb s) (hull_pool m)) eqn:X; auto. exfalso. apply Nt. exists s. split; auto.
        apply hull_iff. apply existsb_exists in X as [x [X1 X2]]. apply Nat.eqb_eq in X2. subst. auto. }
    destruct (H t d Ht Nd) as [[i [a [H1 [H2 H3]]]]|[H1 H2]].
    + left. exists i, a. split; [apply SG; auto|]. split; auto. intros j b Hj. rewrite <- SG. auto.
    + right. split; [intros i a; rewrite <- SG; auto|]. rewrite H2. apply nth_error_nth, nth_error_repeat. auto.
Qed.

(** ** the arrays *)
Lemma upd_error : forall X (l : list X) i j x, i < length l -> nth_error (upd l i x) j = if Nat.eqb j i then Some x else nth_error l j.
Proof.
  intros X l. induction l as [|y l IH]; intros i j x H; cbn in H; [lia|]. destruct i as [|i]; cbn [upd].
  - destruct j; reflexivity.
  - destruct j as [|j]; cbn [nth_error]; auto. rewrite IH by lia. reflexivity.
Qed.
Ltac cells := rewrite ?upd_error by (rewrite ?upd_len; lia); repeat match goal with |- context [Nat.eqb ?a ?b] => destruct (Nat.eqb_spec a b); try lia end; auto.
Section Arrays.
Variable o : Ops.
Lemma put_points_spec : forall (l : list (vec o)) i b, length b = 2 * (i + length l) ->
  exists b', put_points o l i b = Ok b' /\ length b' = length b /\ (forall j, j < 2 * i -> nth_error b' j = nth_error b j) /\
    forall k p, nth_error l k = Some p -> nth_error b' (2 * (i + k)) = Some (Some (vx p)) /\ nth_error b' (2 * (i + k) + 1) = Some (Some (vy p)).
Proof.
  induction l as [|p l IH]; intros i b L; cbn [length] in L; cbn [put_points].
  - exists b. split; auto. split; auto. split; auto. intros [|k] p E; discriminate E.
  - rewrite set_lt by lia. cbn [bind]. rewrite set_lt by (rewrite upd_len; lia). cbn [bind].
    destruct (IH (S i) (upd (upd b (2 * i) (Some (vx p))) (2 * i + 1) (Some (vy p)))) as [b' [E [L' [K H]]]]; [rewrite !upd_len; lia|].
    exists b'. rewrite !upd_len in L'. split; auto. split; auto. split.
    + intros j Hj. rewrite K by lia. cells.
    + intros [|k] q Q; cbn [nth_error] in Q.
      * injection Q as <-. rewrite !K by lia. rewrite Nat.add_0_r. split; cells.
      * replace (i + S k) with (S i + k) by lia. auto.
Qed.
Lemma put_segments_spec : forall (l : list (nat * nat)) i b, length b = 2 * (i + length l) ->
  exists b', put_segments l i b = Ok b' /\ length b' = length b /\ (forall j, j < 2 * i -> nth_error b' j = nth_error b j) /\
    forall k s, nth_error l k = Some s -> nth_error b' (2 * (i + k)) = Some (Some (fst s)) /\ nth_error b' (2 * (i + k) + 1) = Some (Some (snd s)).
Proof.
  induction l as [|p l IH]; intros i b L; cbn [length] in L; cbn [put_segments].
  - exists b. split; auto. split; auto. split; auto. intros [|k] p E; discriminate E.
  - rewrite set_lt by lia. cbn [bind]. rewrite set_lt by (rewrite upd_len; lia). cbn [bind].
    destruct (IH (S i) (upd (upd b (2 * i) (Some (fst p))) (2 * i + 1) (Some (snd p)))) as [b' [E [L' [K H]]]]; [rewrite !upd_len; lia|].
    exists b'. rewrite !upd_len in L'. split; auto. split; auto. split.
    + intros j Hj. rewrite K by lia. cells.
    + intros [|k] q Q; cbn [nth_error] in Q.
      * injection Q as <-. rewrite !K by lia. rewrite Nat.add_0_r. split; cells.
      * replace (i + S k) with (S i + k) by lia. auto.
Qed.
Lemma put_regions_spec : forall (l : list (vec o * nat)) i b, length b = 4 * (i + length l) ->
  exists b', put_regions o l i b = Ok b' /\ length b' = length b /\ (forall j, j < 4 * i -> nth_error b' j = nth_error b j) /\
    forall k r, nth_error l k = Some r -> nth_error b' (4 * (i + k)) = Some (Some (vx (fst r))) /\ nth_error b' (4 * (i + k) + 1) = Some (Some (vy (fst r))) /\
      nth_error b' (4 * (i + k) + 2) = Some (Some (ofZ o (Z.of_nat (snd r)))) /\ nth_error b' (4 * (i + k) + 3) = Some (Some (zero o)).
Proof.
  induction l as [|p l IH]; intros i b L; cbn [length] in L; cbn [put_regions].
  - exists b. split; auto. split; auto. split; auto. intros [|k] p E; discriminate E.
  - rewrite set_lt by lia. cbn [bind]. rewrite set_lt by (rewrite upd_len; lia). cbn [bind]. rewrite set_lt by (rewrite !upd_len; lia). cbn [bind]. rewrite set_lt by (rewrite !upd_len; lia). cbn [bind].
    match goal with |- context [put_regions o l (S i) ?x] => destruct (IH (S i) x) as [b' [E [L' [K H]]]]; [rewrite !upd_len; lia|] end.
    exists b'. rewrite !upd_len in L'. split; auto. split; auto. split.
    + intros j Hj. rewrite K by lia. cells.
    + intros [|k] q Q; cbn [nth_error] in Q.
      * injection Q as <-. rewrite !K by lia. rewrite Nat.add_0_r. repeat split; cells.
      * replace (i + S k) with (S i + k) by lia. auto.
Qed.
Lemma read_ok : forall X (b : list (option X)) i x, nth_error b i = Some (Some x) -> read_cell b i = Ok x.
Proof. intros X b i x E. unfold read_cell. rewrite (get_nth _ _ _ _ E). reflexivity. Qed.
Lemma map_res_seq : forall Y (f : nat -> res Y) l a, (forall k y, nth_error l k = Some y -> f (a + k) = Ok y) -> map_res f (seq a (length l)) = Ok l.
Proof.
  intros Y f l. induction l as [|y l IH]; intros a H; cbn [length seq map_res]; auto.
  rewrite <- (Nat.add_0_r a) at 1. rewrite (H 0 y eq_refl). cbn [bind]. rewrite IH; auto. intros k z E. replace (S a + k) with (a + S k) by lia. apply H. auto.
Qed.
End Arrays.
