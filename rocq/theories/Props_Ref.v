(** C86: the memory taken by the results of the Python bindings. *)
From Coq Require Import String.
From Coq Require Import List Arith ZArith Bool Reals Lia.
From Verif Require Import Base GeometryModel DrawingModel MeshModel LayersModel BindModel RefModel RefSpec Ref_proofs.
Import ListNotations.

(** ** C86: what stays behind when the caller drops a result *)

(** solve: everything but the outermost tuple stays; the counts of the references that nobody holds grow by the stated amount *)
Theorem C86_solve : forall small o A (ms : list (mesh o A)) nV nP h, table_ready small h -> node_count ms <= nV ->
  exists r h1 h2, solve_objects small o A nV nP ms h = Ok (r, h1) /\ ~ live h r /\ decref h1 r = Ok h2 /\
    (forall x, live h x -> live h2 x) /\
    (forall x, live h1 x -> x <> r -> live h2 x) /\
    outside_references h2 = (outside_references h + Z.of_nat (3 + 4 * node_count ms + 2 * nP + 4 * tri_count ms))%Z /\
    objects h + (3 + 4 * node_count ms + 2 * nP + tri_count ms) <= objects h2.
Proof. intros small o A ms nV nP h TR LV. exact (solve_leaks small o A h ms nV nP TR LV). Qed.
Print Assumptions C86_solve.

(** generate_system: the same, and with the System object its matrix and its vector *)
Theorem C86_generate : forall small o A (ms : list (mesh o A)) h, table_ready small h ->
  exists r h1 h2, generate_objects small o A ms h = Ok (r, h1) /\ ~ live h r /\ decref h1 r = Ok h2 /\
    (forall x, live h x -> live h2 x) /\
    (forall x, live h1 x -> x <> r -> live h2 x) /\
    outside_references h2 = (outside_references h + Z.of_nat (3 + 2 * node_count ms + 3 * tri_count ms))%Z /\
    objects h + (3 + 3 * node_count ms + tri_count ms + length ms) <= objects h2.
Proof. intros small o A ms h TR. exact (generate_leaks small o A h ms TR). Qed.
Print Assumptions C86_generate.

(** programs that call the two methods any number of times, on any simulations, and drop every result at once *)
Inductive request (o : Ops) (A : Type) := Solve (nV nP : nat) (ms : list (mesh o A)) | Generate (ms : list (mesh o A)).
Arguments Solve {o A}. Arguments Generate {o A}.
Definition possible {o A} (c : request o A) : Prop := match c with Solve nV _ ms => node_count ms <= nV | Generate _ => True end.
Definition result {o A} (small : nat -> option nat) (c : request o A) (h : heap) : res (nat * heap) :=
  match c with Solve nV nP ms => solve_objects small o A nV nP ms h | Generate ms => generate_objects small o A ms h end.
Definition left_behind {o A} (c : request o A) : nat :=
  match c with Solve _ nP ms => 3 + 4 * node_count ms + 2 * nP + tri_count ms | Generate ms => 3 + 3 * node_count ms + tri_count ms + length ms end.
Definition references_left {o A} (c : request o A) : nat :=
  match c with Solve _ nP ms => 3 + 4 * node_count ms + 2 * nP + 4 * tri_count ms | Generate ms => 3 + 2 * node_count ms + 3 * tri_count ms end.
Fixpoint program {o A} (small : nat -> option nat) (cs : list (request o A)) (h : heap) : res heap :=
  match cs with
  | [] => Ok h
  | c :: cs' => '(r, h) <- result small c h ;; h <- decref h r ;; program small cs' h
  end.
Theorem C86_history : forall small o A (cs : list (request o A)) h, table_ready small h -> Forall possible cs ->
  exists h2, program small cs h = Ok h2 /\ (forall x, live h x -> live h2 x) /\
    outside_references h2 = (outside_references h + Z.of_nat (list_sum (map references_left cs)))%Z /\
    objects h + list_sum (map left_behind cs) <= objects h2 /\ objects h + 3 * length cs <= objects h2.
Proof.
  intros small o A cs. induction cs as [|c cs IH]; intros h TR F; cbn [program].
  - exists h. split; auto. split; auto. cbn. split; [lia|split; lia].
  - inversion F as [|? ? F1 F2]; subst.
    assert (L : leaks h (result small c h) (references_left c) (left_behind c)).
    { destruct c as [nV nP ms|ms]; [apply solve_leaks; auto|apply generate_leaks; auto]. }
    destruct L as [r [h1 [h2 [E1 [_ [E2 [Lh [_ [X N]]]]]]]]]. rewrite E1. cbn [bind]. rewrite E2. cbn [bind].
    assert (TR2 : table_ready small h2) by (intros z x Hz; apply Lh; eapply TR; eauto).
    destruct (IH h2 TR2 F2) as [h3 [E3 [L3 [X3 [N3 N4]]]]]. exists h3. split; auto. split; auto. cbn [map list_sum fold_right length]. unfold list_sum in *.
    split; [rewrite X3, X; lia|]. split; [lia|]. assert (3 <= left_behind c) by (destruct c; cbn [left_behind]; lia). lia.
Qed.
Print Assumptions C86_history.

(** the constructor leaves nothing behind: not when it raises, and not when the simulation is dropped *)
Theorem C86_new : forall o (args : list (py o)) h,
  (forall e, py_new o args = Throw e -> exists h2, new_objects o args h = Ok (None, h2) /\ objects h2 = objects h /\ outside_references h2 = outside_references h /\ (forall x, live h x <-> live h2 x)) /\
  (forall s, py_new o args = Ok s -> exists x h1 h2, new_objects o args h = Ok (Some x, h1) /\ ~ live h x /\ live h1 x /\ (forall y, live h1 y <-> live h y \/ y = x) /\
     decref h1 x = Ok h2 /\ objects h2 = objects h /\ outside_references h2 = outside_references h /\ (forall y, live h y <-> live h2 y)).
Proof.
  intros o args h.
  assert (D : decref (h ++ [Some (1, [])]) (length h) = Ok (h ++ [None])).
  { unfold decref. rewrite app_length. cbn [length decref_at]. unfold get. rewrite nth_error_app2, Nat.sub_diag by lia. cbn [nth_error bind].
    rewrite set_lt by (rewrite app_length; cbn; lia). cbn [bind forM_list]. f_equal. clear. induction h as [|c h IH]; cbn; [reflexivity|]. rewrite IH. reflexivity. }
  assert (LV : forall x, live h x <-> live (h ++ [None]) x).
  { intros x. unfold live. split; intros [r [k H]]; exists r, k.
    - rewrite nth_error_app1; auto. apply nth_error_Some. congruence.
    - destruct (Nat.lt_ge_cases x (length h)) as [L|L]; [rewrite nth_error_app1 in H; auto|]. rewrite nth_error_app2 in H by auto. destruct (x - length h) as [|[|n]]; discriminate H. }
  assert (ON : objects (h ++ [None]) = objects h) by (unfold objects; rewrite filter_app, app_length; cbn [filter length]; apply Nat.add_0_r).
  assert (XN : outside_references (h ++ [None]) = outside_references h) by (rewrite out_app; cbn; lia).
  split.
  - intros e E. unfold new_objects, fresh. rewrite E, D. cbn [bind]. eexists. split; [reflexivity|]. auto.
  - intros s E. unfold new_objects, fresh. rewrite E. exists (length h), (h ++ [Some (1, [])]), (h ++ [None]). split; auto.
    assert (NX : ~ live h (length h)). { intros [r [k H]]. assert (length h < length h) by (apply nth_error_Some; congruence). lia. }
    assert (LX : live (h ++ [Some (1, [])]) (length h)). { exists 0, []. rewrite nth_error_app2, Nat.sub_diag by lia. reflexivity. }
    split; auto. split; auto. split; auto.
    intros y. split.
    + intros [r [k H]]. destruct (Nat.lt_trichotomy y (length h)) as [L|[L|L]]; [left; rewrite nth_error_app1 in H by auto; exists r, k; auto|auto|].
      assert (y < length (h ++ [Some (1, @nil (option nat))])) by (apply nth_error_Some; congruence). rewrite app_length in *. cbn in *. lia.
    + intros [[r [k H]]| ->]; auto. exists r, k. rewrite nth_error_app1; auto. apply nth_error_Some. congruence.
Qed.
Print Assumptions C86_new.

(** The claim in full: dropping the result of a call gives back what it took. *)
Definition C86_gives_back : Prop := forall small o A (c : request o A) h, table_ready small h -> possible c ->
  forall h2, program small [c] h = Ok h2 -> objects h2 = objects h.

(** one layer with two triangles, and a table with the integers 0 and 1 *)
Definition at_ (x y : R) : vec ROps := @mkV ROps x y.
Definition plate : list (mesh ROps nat) :=
  [@mkMesh ROps nat (at_ 0 0) 0%R 0%R 1%R [at_ 0 0; at_ 1 0; at_ 1 1; at_ 0 1] [] [(0, 1, 2); (0, 2, 3)] [0; 0] (mkD [] [] [] [] [])].
Definition ints (z : nat) : option nat := match z with 0 => Some 0 | 1 => Some 1 | _ => None end.
Definition start : heap := [Some (7, []); Some (7, [])].
Theorem C86_refuted : ~ C86_gives_back.
Proof.
  intros H. assert (TR : table_ready ints start). { intros [|[|z]] x E; inversion E; subst; exists 6, []; reflexivity. }
  destruct (C86_history ints ROps nat [Generate plate] start TR) as [h2 [E [_ [_ [_ N]]]]]; [constructor; [exact I|constructor]|].
  specialize (H ints ROps nat (Generate plate) start TR I h2 E). cbn [length] in N. lia.
Qed.
Print Assumptions C86_refuted.

(** a program: generate the system, solve it twice *)
Definition session : list (request ROps nat) := [Generate plate; Solve 4 4 plate; Solve 4 4 plate].
Example C86_met : table_ready ints start /\ Forall possible session /\
  exists h2, program ints session start = Ok h2 /\ objects start = 2 /\ objects h2 = 91 /\ outside_references h2 = (14 + 17 + 35 + 35)%Z.
Proof.
  split; [intros [|[|z]] x E; inversion E; subst; exists 6, []; reflexivity|]. split; [repeat constructor|].
  eexists. split; [vm_compute; reflexivity|]. split; [reflexivity|]. split; vm_compute; reflexivity.
Qed.
Example C86_new_met : (exists e, py_new ROps [] = Throw e) /\ (exists s, py_new ROps [PyInt 1; PyList [@PyFloat ROps 1%R]] = Ok s).
Proof. split; eexists; reflexivity. Qed.
