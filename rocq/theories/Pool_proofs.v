(** Invariants of the thread pool. *)
From Coq Require Import List Arith Lia Permutation.
From Verif Require Import PoolModel PoolSpec.
Import ListNotations.

Definition todo (o : owner) : list nat := match o with Pushing ts => ts | Notifying ts => ts | _ => [] end.
Definition queued (q : list (option nat)) : list nat := flat_map (fun x => match x with Some t => [t] | None => [] end) q.
Fixpoint nones (q : list (option nat)) : nat := match q with [] => 0 | None :: q' => S (nones q') | _ :: q' => nones q' end.
Definition stopping (ws : list worker) : nat := length (filter (fun w => match w with Stopping => true | _ => false end) ws).
Definition exited (ws : list worker) : nat := length (filter (fun w => match w with Exited => true | _ => false end) ws).
Definition awake (ws : list worker) : Prop := exists w, In w ws /\ w <> Asleep /\ w <> Exited.
Definition stops (o : owner) : nat := match o with Pushing _ | Notifying _ => 0 | _ => 1 end.

(** tasks keep their order: started, then queued, then still to push *)
Definition order (n : nat) (ts : list nat) (s : pool) : Prop :=
  length (workers s) = n /\ ((own s = Done -> n <> 0) -> started s ++ queued (queue s) ++ todo (own s) = ts).
Definition counts (s : pool) : Prop := Permutation (started s) (ended s ++ running (workers s)).
(** the stop task is the last of the queue, and there is one, or a worker about to push it, once Stop has been called *)
Definition tail (s : pool) : Prop := exists l, queue s = map Some l ++ repeat None (nones (queue s)).
Definition one_stop (s : pool) : Prop := own s <> Done -> nones (queue s) + stopping (workers s) = stops (own s).
(** no wakeup is lost *)
Definition alert (s : pool) : Prop := queue s <> [] -> awake (workers s) \/ (exists ts, own s = Notifying ts) \/ (forall w, In w (workers s) -> w = Exited).
Definition halted (s : pool) : Prop := (stopping (workers s) <> 0 \/ In Exited (workers s)) -> queued (queue s) = [] /\ stops (own s) = 1.
Definition final (s : pool) : Prop := own s = Done -> queue s = [] /\ forall w, In w (workers s) -> w = Exited.

Lemma queued_app : forall a b, queued (a ++ b) = queued a ++ queued b.
Proof. intros. apply flat_map_app. Qed.
Lemma nones_app : forall a b, nones (a ++ b) = nones a + nones b.
Proof. induction a as [|[x|] a IH]; intros b; cbn; auto. Qed.
Lemma running_app : forall a b, running (a ++ b) = running a ++ running b.
Proof. intros. apply flat_map_app. Qed.
Lemma stopping_app : forall a b, stopping (a ++ b) = stopping a + stopping b.
Proof. intros. unfold stopping. rewrite filter_app, app_length. auto. Qed.
Lemma notify_length : forall a b, notify a b -> length b = length a.
Proof. intros a b [l1 l2|l H]; auto. rewrite !app_length. reflexivity. Qed.
Lemma notify_running : forall a b, notify a b -> running b = running a.
Proof. intros a b [l1 l2|l H]; auto. rewrite !running_app. reflexivity. Qed.
Lemma notify_stopping : forall a b, notify a b -> stopping b = stopping a.
Proof. intros a b [l1 l2|l H]; auto. rewrite !stopping_app. reflexivity. Qed.
Lemma notify_exited : forall a b, notify a b -> (In Exited b <-> In Exited a).
Proof. intros a b [l1 l2|l H]; [|tauto]. rewrite !in_app_iff. cbn. intuition congruence. Qed.
Lemma notify_awake : forall a b, notify a b -> awake b \/ (forall w, In w b -> w = Exited).
Proof.
  intros a b [l1 l2|l H].
  - left. exists Idle. split; [apply in_or_app; right; left; auto|split; discriminate].
  - assert (G : forall l, ~ In Asleep l -> awake l \/ (forall w, In w l -> w = Exited)).
    { clear. induction l as [|w l IH]; intros N; [right; intros w []|]. destruct w.
      - left. exists Idle. split; [left; auto|split; discriminate].
      - exfalso. apply N. left; auto.
      - left. exists (Running t). split; [left; auto|split; discriminate].
      - left. exists Stopping. split; [left; auto|split; discriminate].
      - destruct IH as [[w [I1 I2]]|IH]; [intros Q; apply N; right; auto| |]; [left; exists w; split; auto; right; auto|].
        right. intros w [<-|I]; auto. }
    apply G; auto.
Qed.
Lemma queued_none : forall q, queued q = [] -> q = repeat None (nones q).
Proof. induction q as [|[x|] q IH]; intros H; cbn in *; [auto|discriminate|f_equal; auto]. Qed.
Lemma queued_some : forall l, queued (map Some l) = l.
Proof. induction l as [|x l IH]; cbn; auto. f_equal; auto. Qed.
Lemma nones_some : forall l, nones (map Some l) = 0.
Proof. induction l as [|x l IH]; cbn; auto. Qed.
Lemma nones_rep : forall k, nones (repeat None k) = k.
Proof. induction k as [|k IH]; cbn; auto. Qed.
Lemma queued_rep : forall k, queued (repeat None k) = [].
Proof. induction k as [|k IH]; cbn; auto. Qed.

Record inv (n : nat) (ts : list nat) (s : pool) : Prop :=
  { i_order : order n ts s; i_counts : counts s; i_tail : tail s; i_stop : one_stop s; i_alert : alert s; i_halted : halted s; i_final : final s }.

Lemma stopping_in : forall l1 l2, stopping (l1 ++ Stopping :: l2) = S (stopping l1 + stopping l2).
Proof. intros. rewrite stopping_app. cbn. unfold stopping. lia. Qed.
Lemma stopping_skip : forall l1 w l2, w <> Stopping -> stopping (l1 ++ w :: l2) = stopping l1 + stopping l2.
Proof. intros l1 w l2 H. rewrite stopping_app. unfold stopping. cbn. destruct w; auto. congruence. Qed.
Lemma exited_mid : forall l1 w l2, w <> Exited -> (In Exited (l1 ++ w :: l2) <-> In Exited (l1 ++ l2)).
Proof. intros l1 w l2 H. rewrite !in_app_iff. cbn. intuition congruence. Qed.
Lemma awake_mid : forall l1 w l2, w <> Asleep -> w <> Exited -> awake (l1 ++ w :: l2).
Proof. intros l1 w l2 H1 H2. exists w. split; [apply in_or_app; right; left; auto|auto]. Qed.
Lemma not_all_exited : forall l1 w l2, w <> Exited -> ~ (forall v, In v (l1 ++ w :: l2) -> v = Exited).
Proof. intros l1 w l2 H Q. apply H. apply Q. apply in_or_app. right; left; auto. Qed.

Lemma inv_new : forall n ts, inv n ts (pool_new n ts).
Proof.
  intros n ts. unfold pool_new. constructor.
  - split; [apply repeat_length|reflexivity].
  - unfold counts. cbn [started ended workers app]. assert (E : running (repeat Idle n) = []) by (induction n; cbn; auto). rewrite E. constructor.
  - exists []. reflexivity.
  - intros _. cbn. induction n; cbn; auto.
  - intros H. cbn in H. congruence.
  - intros [H|H]; cbn in H; exfalso.
    + apply H. clear. induction n; cbn; auto.
    + apply repeat_spec in H. discriminate.
  - intros H. discriminate H.
Qed.
Lemma inv_step : forall n ts s s', inv n ts s -> step s s' -> inv n ts s'.
Proof.
  intros n ts s s' [IO IC IT IS IA IH IF] H.
  unfold order, counts, tail, one_stop, alert, halted, final in *. destruct IO as [IL IO].
  destruct H as [l1 l2 o st en|t q l1 l2 o st en|q l1 l2 o st en|t q l1 l2 o st en|q l1 l2 l o st en N|q ws t ts' st en|q ws ws' ts' st en N|q ws ws' st en N|q ws st en E]; cbn [queue workers own started ended] in *.
  - (* sleep *) constructor; unfold order, counts, tail, one_stop, alert, halted, final; cbn [queue workers own started ended]; auto.
    + rewrite app_length in *. cbn in *. auto.
    + rewrite running_app in *. exact IC.
    + rewrite !stopping_skip in * by discriminate. auto.
    + intros Q. congruence.
    + rewrite !stopping_skip, !exited_mid in * by discriminate. auto.
    + intros Q. destruct (IF Q) as [_ Z]. exfalso. eapply not_all_exited; [|exact Z]. discriminate.
  - (* take *) assert (SZ : stopping l1 + stopping l2 = 0 /\ ~ In Exited (l1 ++ l2)).
    { rewrite stopping_skip, exited_mid in IH by discriminate. split.
      - destruct (Nat.eq_dec (stopping l1 + stopping l2) 0); auto. destruct IH as [Z _]; auto. discriminate Z.
      - intros Q. destruct IH as [Z _]; auto. discriminate Z. }
    constructor; unfold order, counts, tail, one_stop, alert, halted, final; cbn [queue workers own started ended].
    + split; [rewrite app_length in *; exact IL|]. intros Q. rewrite <- (IO Q). rewrite <- !app_assoc. reflexivity.
    + rewrite running_app in *. cbn in *. rewrite (Permutation_app_comm st [t]). cbn. rewrite IC.
      rewrite !app_assoc. apply Permutation_middle.
    + destruct IT as [l IT]. cbn in IT. destruct l as [|x l]; [|cbn in IT; injection IT as _ E; exists l; exact E].
      cbn in IT. destruct (nones q); discriminate IT.
    + rewrite !stopping_skip in * by discriminate. exact IS.
    + intros _. left. apply awake_mid; discriminate.
    + rewrite !stopping_skip, !exited_mid by discriminate. intros [Q|Q]; [lia|tauto].
    + intros Q. destruct (IF Q) as [Z _]. discriminate Z.
  - (* take stop *) destruct IT as [l IT]. cbn in IT. destruct l as [|x l]; [|discriminate IT]. injection IT as IT.
    assert (QN : queued q = []) by (rewrite IT; apply queued_rep).
    assert (SO : o = Done -> False) by (intros Q; destruct (IF Q) as [Z _]; discriminate Z).
    constructor; unfold order, counts, tail, one_stop, alert, halted, final; cbn [queue workers own started ended].
    + split; [rewrite app_length in *; exact IL|exact IO].
    + rewrite running_app in *. exact IC.
    + exists []. exact IT.
    + intros Q. specialize (IS Q). rewrite stopping_skip in IS by discriminate. rewrite stopping_in. cbn in IS. lia.
    + intros _. left. apply awake_mid; discriminate.
    + intros _. split; auto. assert (ND : o <> Done) by (intros Q; auto). specialize (IS ND). cbn in IS. destruct o; cbn in *; lia.
    + intros Q. exfalso. auto.
  - (* end *) constructor; unfold order, counts, tail, one_stop, alert, halted, final; cbn [queue workers own started ended]; auto.
    + rewrite app_length in *. cbn in *. auto.
    + rewrite running_app in *. cbn in *. rewrite IC. rewrite <- !app_assoc. cbn. apply Permutation_app_head. symmetry. apply Permutation_middle.
    + rewrite !stopping_skip in * by discriminate. auto.
    + intros _. left. apply awake_mid; discriminate.
    + rewrite !stopping_skip, !exited_mid in * by discriminate. auto.
    + intros Q. destruct (IF Q) as [_ Z]. exfalso. eapply not_all_exited; [|exact Z]. discriminate.
  - (* exit *) assert (SQ : queued q = [] /\ stops o = 1) by (apply IH; left; rewrite stopping_in; lia). destruct SQ as [SQ SO].
    assert (ND : o <> Done) by (intros Q; destruct (IF Q) as [_ Z]; eapply not_all_exited; [|exact Z]; discriminate).
    specialize (IS ND). rewrite stopping_in, SO in IS.
    constructor; unfold order, counts, tail, one_stop, alert, halted, final; cbn [queue workers own started ended].
    + rewrite (notify_length _ _ N), app_length. rewrite app_length in IL. split; [exact IL|]. intros Q. rewrite queued_app. cbn. rewrite app_nil_r. exact (IO Q).
    + rewrite (notify_running _ _ N). rewrite running_app in *. exact IC.
    + exists []. cbn. rewrite nones_app. cbn. rewrite (queued_none q SQ) at 1. replace (nones q) with 0 by lia. reflexivity.
    + intros _. rewrite nones_app, (notify_stopping _ _ N), stopping_skip, SO by discriminate. cbn. lia.
    + intros _. destruct (notify_awake _ _ N); auto.
    + intros _. rewrite queued_app, SQ. auto.
    + intros Q. congruence.
  - (* push *) assert (NH : stopping ws = 0 /\ ~ In Exited ws).
    { split; [destruct (Nat.eq_dec (stopping ws) 0); auto|intros Q]; destruct IH as [_ Z]; auto; discriminate Z. }
    constructor; unfold order, counts, tail, one_stop, alert, halted, final; cbn [queue workers own started ended]; auto.
    + split; auto. intros _. rewrite queued_app. cbn. rewrite <- app_assoc. apply IO. discriminate.
    + destruct IT as [l IT]. specialize (IS ltac:(discriminate)). cbn in IS. exists (l ++ [t]). rewrite nones_app. cbn. replace (nones q) with 0 in * by lia. cbn in *. rewrite IT, !app_nil_r, map_app. reflexivity.
    + intros _. specialize (IS ltac:(discriminate)). rewrite nones_app. cbn in *. lia.
    + right. left. eauto.
    + intros [Q|Q]; [destruct NH as [Z _]; congruence|tauto].
    + discriminate.
  - (* notify *) constructor; unfold order, counts, tail, one_stop, alert, halted, final; cbn [queue workers own started ended]; auto.
    + rewrite (notify_length _ _ N). split; auto. intros _. apply IO. discriminate.
    + rewrite (notify_running _ _ N). auto.
    + intros Q. rewrite (notify_stopping _ _ N). apply IS. discriminate.
    + intros _. destruct (notify_awake _ _ N); auto.
    + rewrite (notify_stopping _ _ N), (notify_exited _ _ N). auto.
    + discriminate.
  - (* stop *) assert (NH : stopping ws = 0 /\ ~ In Exited ws).
    { split; [destruct (Nat.eq_dec (stopping ws) 0); auto|intros Q]; destruct IH as [_ Z]; auto; discriminate Z. }
    constructor; unfold order, counts, tail, one_stop, alert, halted, final; cbn [queue workers own started ended]; auto.
    + rewrite (notify_length _ _ N). split; auto. intros _. rewrite queued_app. cbn. rewrite app_nil_r. apply IO. discriminate.
    + rewrite (notify_running _ _ N). auto.
    + destruct IT as [l IT]. specialize (IS ltac:(discriminate)). cbn in IS. exists l. rewrite nones_app. cbn. replace (nones q) with 0 in * by lia. cbn in *. rewrite IT, app_nil_r. reflexivity.
    + intros _. specialize (IS ltac:(discriminate)). rewrite nones_app, (notify_stopping _ _ N). cbn in *. lia.
    + intros _. destruct (notify_awake _ _ N); auto.
    + rewrite (notify_stopping _ _ N), (notify_exited _ _ N). intros [Q|Q]; [destruct NH as [Z _]; congruence|tauto].
    + discriminate.
  - (* joined *) constructor; unfold order, counts, tail, one_stop, alert, halted, final; cbn [queue workers own started ended]; auto.
    + split; auto. intros Q. destruct ws as [|w ws]; [cbn in IL; exfalso; apply (Q eq_refl); auto|].
      destruct IH as [Z _]; [right; rewrite <- (E w); left; auto|]. rewrite <- IO by discriminate. rewrite Z. reflexivity.
    + exists []. reflexivity.
    + congruence.
Qed.
Lemma inv_spurious : forall n ts s s', inv n ts s -> spurious s s' -> inv n ts s'.
Proof.
  intros n ts s s' I Sp. destruct Sp as [q l1 l2 o st en]. destruct I as [IO IC IT IS IA IH IF].
  unfold order, counts, tail, one_stop, alert, halted, final in *. cbn [queue workers own started ended] in *. destruct IO as [IL IO].
  constructor; unfold order, counts, tail, one_stop, alert, halted, final; cbn [queue workers own started ended]; auto.
  - rewrite app_length in *. cbn [length] in *. split; auto.
  - rewrite running_app in *. exact IC.
  - rewrite !stopping_skip in * by discriminate. auto.
  - intros _. left. apply awake_mid; discriminate.
  - rewrite !stopping_skip, !exited_mid in * by discriminate. auto.
  - intros Q. destruct (IF Q) as [_ Z]. exfalso. eapply not_all_exited; [|exact Z]. discriminate.
Qed.
Lemma inv_run : forall n ts k j s s', run k j s s' -> inv n ts s -> inv n ts s'.
Proof.
  intros n ts k j s s' H. induction H as [s|k j s s1 s2 H IH St|k j s s1 s2 H IH Sp]; intros I; [exact I| |].
  - eapply inv_step; [apply (IH I)|exact St].
  - eapply inv_spurious; [apply (IH I)|exact Sp].
Qed.
Lemma inv_reachable : forall n ts s, reachable n ts s -> inv n ts s.
Proof. intros n ts s [k [j H]]. eapply inv_run; eauto. apply inv_new. Qed.

(** ** consequences *)
Lemma fifo : forall n ts s, reachable n ts s -> exists rest, ts = started s ++ rest.
Proof.
  assert (G : forall n ts k j s, run k j (pool_new n ts) s -> exists rest, ts = started s ++ rest).
  { intros n ts k j s H. remember (pool_new n ts) as s0. induction H as [s|k j s s1 s2 H IH St|k j s s1 s2 H IH Sp]; subst.
    - exists ts. reflexivity.
    - specialize (IH eq_refl). assert (I : inv n ts s1) by (eapply inv_run; eauto; apply inv_new).
      destruct St; cbn [started] in *; auto.
      destruct I as [[_ IO] _ _ _ _ _ IF]. cbn [own started queue] in *. eexists. rewrite <- app_assoc. symmetry. apply IO. intros Q. destruct (IF Q) as [Z _]. discriminate Z.
    - specialize (IH eq_refl). destruct Sp; cbn in *; auto. }
  intros n ts s [k [j H]]. eapply G; eauto.
Qed.
Lemma once : forall n ts s, reachable n ts s -> Permutation (started s) (ended s ++ running (workers s)).
Proof. intros n ts s H. apply (i_counts _ _ _ (inv_reachable n ts s H)). Qed.
Lemma all_done : forall n ts s, reachable n ts s -> n <> 0 -> own s = Done -> started s = ts /\ Permutation (ended s) ts /\ queue s = [] /\ forall w, In w (workers s) -> w = Exited.
Proof.
  intros n ts s H N D. destruct (inv_reachable n ts s H) as [[IL IO] IC IT IS IA IH IF]. destruct (IF D) as [F1 F2].
  assert (E : started s = ts). { rewrite <- IO by auto. rewrite F1, D. cbn. rewrite app_nil_r. auto. }
  split; auto. split; auto. unfold counts in IC. assert (R : running (workers s) = []).
  { clear -F2. induction (workers s) as [|w l IH]; auto. rewrite (F2 w) by (left; auto). cbn. apply IH. intros v I. apply F2. right; auto. }
  rewrite R, app_nil_r, E in IC. symmetry. auto.
Qed.
Lemma no_deadlock : forall n ts s, reachable n ts s -> own s <> Done -> exists s', step s s'.
Proof.
  intros n ts s H D. pose proof (inv_reachable n ts s H) as [IO IC IT IS IA IH IF]. destruct s as [q ws o st en]. unfold order, counts, tail, one_stop, alert, halted, final in *. cbn [queue workers own started ended] in *.
  assert (NT : forall l, exists l', notify l l').
  { intros l. destruct (in_dec (fun a b : worker => ltac:(decide equality; apply Nat.eq_dec)) Asleep l) as [I|I].
    - apply in_split in I. destruct I as [l1 [l2 ->]]. eexists. apply notify_wakes.
    - exists l. apply notify_none; auto. }
  destruct o as [[|t ts']|ts'| |].
  - destruct (NT ws) as [l' N]. eexists. apply step_stop; eauto.
  - eexists. apply step_push.
  - destruct (NT ws) as [l' N]. eexists. apply step_notify; eauto.
  - assert (AW : awake ws \/ forall w, In w ws -> w = Exited).
    { destruct (Nat.eq_dec (stopping ws) 0) as [Z|Z].
      - specialize (IS D). cbn in IS. destruct q as [|x q]; [cbn in IS; lia|]. destruct IA as [A|[[ts' Q]|A]]; auto; [discriminate|discriminate Q].
      - left. unfold stopping in Z. destruct (filter _ ws) as [|w l] eqn:F; [cbn in Z; lia|]. assert (I : In w (filter (fun w => match w with Stopping => true | _ => false end) ws)) by (rewrite F; left; auto).
        apply filter_In in I. destruct I as [I1 I2]. exists w. split; auto. destruct w; try discriminate I2. split; discriminate. }
    destruct AW as [[w [I [A1 A2]]]|AW]; [|eexists; apply step_joined; auto].
    apply in_split in I. destruct I as [l1 [l2 ->]]. destruct w; try congruence.
    + destruct q as [|[t|] q]; eexists; [apply step_sleep|apply step_take|apply step_take_stop].
    + eexists. apply step_end.
    + destruct (NT (l1 ++ Exited :: l2)) as [l' N]. eexists. apply step_exit; eauto.
  - congruence.
Qed.

(** ** every execution ends *)
Definition wworker (w : worker) : nat := match w with Idle => 11 | Asleep => 10 | Running _ => 12 | Stopping => 5 | Exited => 0 end.
Definition wq (x : option nat) : nat := match x with Some _ => 3 | None => 0 end.
Definition wowner (o : owner) : nat := match o with Pushing ts => 6 * length ts + 3 | Notifying ts => 6 * length ts + 5 | Joining => 1 | Done => 0 end.
Definition total {X} (f : X -> nat) (l : list X) : nat := list_sum (map f l).
Definition weight (s : pool) : nat := total wworker (workers s) + total wq (queue s) + wowner (own s).
Lemma total_app : forall X (f : X -> nat) a b, total f (a ++ b) = total f a + total f b.
Proof. intros. unfold total. rewrite map_app, list_sum_app. auto. Qed.
Lemma total_cons : forall X (f : X -> nat) x l, total f (x :: l) = f x + total f l.
Proof. reflexivity. Qed.
Lemma notify_total : forall a b, notify a b -> total wworker b <= S (total wworker a).
Proof. intros a b [l1 l2|l H]; [|lia]. rewrite !total_app, !total_cons. cbn [wworker]. lia. Qed.
Lemma weight_step : forall s s', step s s' -> weight s' < weight s.
Proof.
  intros s s' H. unfold weight. destruct H as [l1 l2 o st en|t q l1 l2 o st en|q l1 l2 o st en|t q l1 l2 o st en|q l1 l2 l o st en N|q ws t ts' st en|q ws ws' ts' st en N|q ws ws' st en N|q ws st en E]; cbn [queue workers own];
    rewrite ?total_app, ?total_cons; cbn [wworker wq wowner length]; try lia.
  - pose proof (notify_total _ _ N) as Z. rewrite total_app, total_cons in Z. cbn [wworker] in Z. change (total wq []) with 0. lia.
  - change (total wq []) with 0. lia.
  - pose proof (notify_total _ _ N) as Z. lia.
  - pose proof (notify_total _ _ N) as Z. change (total wq []) with 0. lia.
  - change (total wq []) with 0. lia.
Qed.
Lemma weight_spurious : forall s s', spurious s s' -> weight s' = S (weight s).
Proof. intros s s' []. unfold weight. cbn [queue workers own]. rewrite !total_app, !total_cons. cbn [wworker]. lia. Qed.
Lemma run_weight : forall k j s s', run k j s s' -> k + weight s' <= weight s + j.
Proof. intros k j s s' H. induction H as [s|k j s s1 s2 H IH St|k j s s1 s2 H IH Sp]; [lia|apply weight_step in St; lia|apply weight_spurious in Sp; lia]. Qed.
Lemma run_bound : forall n ts k j s, run k j (pool_new n ts) s -> k <= 11 * n + 6 * length ts + 3 + j.
Proof.
  intros n ts k j s H. apply run_weight in H. unfold weight, pool_new in H. cbn [queue workers own wowner] in H. change (total wq []) with 0 in H.
  assert (E : total wworker (repeat Idle n) = 11 * n) by (clear; induction n as [|n IH]; [reflexivity|cbn [repeat]; rewrite total_cons, IH; cbn [wworker]; lia]). lia.
Qed.
