(** Finite sums of real numbers over index ranges. *)
From Coq Require Import List Arith Lia Reals Lra.
Import ListNotations.
Local Open Scope R_scope.

Fixpoint sumn (n : nat) (f : nat -> R) : R :=
  match n with O => 0 | S n' => sumn n' f + f n' end.

Lemma sumn_ext : forall n f g, (forall i, (i < n)%nat -> f i = g i) -> sumn n f = sumn n g.
Proof. induction n as [|n IH]; intros f g H; cbn; auto. rewrite (IH f g), (H n); auto. Qed.

Lemma sumn_plus : forall n f g, sumn n (fun i => f i + g i) = sumn n f + sumn n g.
Proof. induction n as [|n IH]; intros; cbn; [ring|]. rewrite IH; ring. Qed.

Lemma sumn_minus : forall n f g, sumn n (fun i => f i - g i) = sumn n f - sumn n g.
Proof. induction n as [|n IH]; intros; cbn; [ring|]. rewrite IH; ring. Qed.

Lemma sumn_opp : forall n f, sumn n (fun i => - f i) = - sumn n f.
Proof. induction n as [|n IH]; intros; cbn; [ring|]. rewrite IH; ring. Qed.

Lemma sumn_scal : forall n c f, sumn n (fun i => c * f i) = c * sumn n f.
Proof. induction n as [|n IH]; intros; cbn; [ring|]. rewrite IH; ring. Qed.

Lemma sumn_scal_r : forall n c f, sumn n (fun i => f i * c) = sumn n f * c.
Proof. induction n as [|n IH]; intros; cbn; [ring|]. rewrite IH; ring. Qed.

Lemma sumn_zero : forall n, sumn n (fun _ => 0) = 0.
Proof. induction n as [|n IH]; cbn; auto. rewrite IH; ring. Qed.

Lemma sumn_0 : forall n f, (forall i, (i < n)%nat -> f i = 0) -> sumn n f = 0.
Proof. intros n f H. rewrite (sumn_ext n f (fun _ => 0)) by auto. apply sumn_zero. Qed.

Lemma sumn_exchange : forall n p f, sumn n (fun i => sumn p (fun j => f i j)) = sumn p (fun j => sumn n (fun i => f i j)).
Proof.
  induction n as [|n IH]; intros p f; cbn.
  - rewrite sumn_zero; auto.
  - rewrite IH. rewrite <- sumn_plus. auto.
Qed.

Lemma sumn_single : forall n k f, (k < n)%nat -> (forall i, (i < n)%nat -> i <> k -> f i = 0) -> sumn n f = f k.
Proof.
  induction n as [|n IH]; intros k f Hk H; [lia|]. cbn.
  destruct (Nat.eq_dec k n) as [E|E].
  - subst. rewrite sumn_0; [ring|]. intros i Hi; apply H; lia.
  - rewrite (IH k f), (H n) by (auto; lia || (intros; apply H; lia)). ring.
Qed.

Lemma sumn_delta : forall n k f, (k < n)%nat -> sumn n (fun i => if Nat.eqb i k then f i else 0) = f k.
Proof.
  intros n k f Hk. rewrite (sumn_single n k); auto.
  - rewrite Nat.eqb_refl; auto.
  - intros i Hi E. apply Nat.eqb_neq in E; rewrite E; auto.
Qed.

Lemma sumn_nonneg : forall n f, (forall i, (i < n)%nat -> 0 <= f i) -> 0 <= sumn n f.
Proof. induction n as [|n IH]; intros f H; cbn; [lra|]. assert (0 <= f n) by (apply H; lia). assert (0 <= sumn n f) by (apply IH; intros; apply H; lia). lra. Qed.

Lemma sumn_le : forall n f g, (forall i, (i < n)%nat -> f i <= g i) -> sumn n f <= sumn n g.
Proof. induction n as [|n IH]; intros f g H; cbn; [lra|]. assert (f n <= g n) by (apply H; lia). assert (sumn n f <= sumn n g) by (apply IH; intros; apply H; lia). lra. Qed.

Lemma sumn_pos_zero : forall n f, (forall i, (i < n)%nat -> 0 <= f i) -> sumn n f = 0 -> forall i, (i < n)%nat -> f i = 0.
Proof.
  induction n as [|n IH]; intros f H E i Hi; [lia|]. cbn in E.
  assert (0 <= sumn n f) by (apply sumn_nonneg; intros; apply H; lia).
  assert (0 <= f n) by (apply H; lia).
  destruct (Nat.eq_dec i n); [subst; lra|].
  apply IH; try lia; [intros; apply H; lia|lra].
Qed.

Lemma sumn_Rabs : forall n f, Rabs (sumn n f) <= sumn n (fun i => Rabs (f i)).
Proof. induction n as [|n IH]; intros f; cbn; [rewrite Rabs_R0; lra|]. pose proof (Rabs_triang (sumn n f) (f n)). pose proof (IH f). lra. Qed.

Lemma sumn_S_head : forall n f, sumn (S n) f = f O + sumn n (fun i => f (S i)).
Proof. induction n as [|n IH]; intros f; [cbn; ring|]. cbn [sumn] in *. rewrite IH. ring. Qed.

Lemma sumn_app : forall n p f, sumn (n + p) f = sumn n f + sumn p (fun i => f (n + i)%nat).
Proof.
  induction p as [|p IH]; intros f; cbn.
  - rewrite Nat.add_0_r; ring.
  - rewrite Nat.add_succ_r. cbn. rewrite IH. ring.
Qed.

(** three-way split of a sum at index k *)
Lemma sumn_split3 : forall n k f, (k < n)%nat ->
  sumn n f = f k + sumn n (fun j => if Nat.ltb k j then f j else 0) + sumn n (fun j => if Nat.ltb j k then f j else 0).
Proof.
  intros n k f Hk. rewrite <- (sumn_delta n k f Hk) at 1. rewrite <- !sumn_plus. apply sumn_ext. intros i Hi.
  destruct (Nat.eqb_spec i k), (Nat.ltb_spec k i), (Nat.ltb_spec i k); try lia; ring.
Qed.

Lemma sumn_lt_cut : forall n k f, (k <= n)%nat -> sumn n (fun j => if Nat.ltb j k then f j else 0) = sumn k f.
Proof.
  intros n k f Hk. replace n with (k + (n - k))%nat by lia. rewrite sumn_app.
  rewrite (sumn_ext k _ f) by (intros i Hi; apply Nat.ltb_lt in Hi; rewrite Hi; auto).
  rewrite (sumn_0 (n - k)); [ring|]. intros i Hi. destruct (Nat.ltb_spec (k + i) k); [lia|auto].
Qed.

(** sum over a list of pairs (column, value) *)
Definition lsum (l : list (nat * R)) (f : nat -> R -> R) : R :=
  fold_right (fun cv acc => f (fst cv) (snd cv) + acc) 0 l.
(** sum over any list *)
Definition suml {A} (l : list A) (f : A -> R) : R := fold_right (fun x acc => f x + acc) 0 l.

Lemma suml_app : forall A (l1 l2 : list A) f, suml (l1 ++ l2) f = suml l1 f + suml l2 f.
Proof. unfold suml; induction l1 as [|x l1 IH]; intros; cbn; [ring|]. rewrite IH; ring. Qed.
Lemma suml_ext : forall A (l : list A) f g, (forall x, In x l -> f x = g x) -> suml l f = suml l g.
Proof. unfold suml; induction l as [|x l IH]; intros f g H; cbn; auto. rewrite (H x), (IH f g); cbn; auto. intros; apply H; cbn; auto. Qed.
Lemma suml_plus : forall A (l : list A) f g, suml l (fun x => f x + g x) = suml l f + suml l g.
Proof. unfold suml; induction l as [|x l IH]; intros; cbn; [ring|]. rewrite IH; ring. Qed.
Lemma suml_scal : forall A (l : list A) c f, suml l (fun x => c * f x) = c * suml l f.
Proof. unfold suml; induction l as [|x l IH]; intros; cbn; [ring|]. rewrite IH; ring. Qed.
Lemma suml_nonneg : forall A (l : list A) f, (forall x, In x l -> 0 <= f x) -> 0 <= suml l f.
Proof. unfold suml; induction l as [|x l IH]; intros f H; cbn; [lra|]. assert (0 <= f x) by (apply H; cbn; auto). assert (0 <= fold_right (fun x acc => f x + acc) 0 l) by (apply IH; intros; apply H; cbn; auto). lra. Qed.
Lemma suml_0 : forall A (l : list A) f, (forall x, In x l -> f x = 0) -> suml l f = 0.
Proof. unfold suml; induction l as [|x l IH]; intros f H; cbn; auto. rewrite (H x), IH; cbn; auto; [ring|]. intros; apply H; cbn; auto. Qed.
Lemma suml_sumn : forall A (l : list A) n (f : A -> nat -> R),
  suml l (fun x => sumn n (f x)) = sumn n (fun i => suml l (fun x => f x i)).
Proof. unfold suml; induction l as [|x l IH]; intros n f; cbn; [rewrite sumn_zero; auto|]. rewrite IH, <- sumn_plus; auto. Qed.
Lemma suml_map : forall A B (g : A -> B) l f, suml (map g l) f = suml l (fun x => f (g x)).
Proof. unfold suml; induction l as [|x l IH]; intros; cbn; auto. rewrite IH; auto. Qed.

(** entry of a real vector, 0 outside *)
Definition vget (x : list R) (i : nat) : R := nth i x 0.

Lemma all_zero_dec : forall n (x : nat -> R), (exists k, (k < n)%nat /\ x k <> 0) \/ (forall k, (k < n)%nat -> x k = 0).
Proof.
  induction n as [|n IH]; intros x.
  - right; intros; lia.
  - destruct (IH x) as [[k [Hk H]]|H].
    + left; exists k; split; auto.
    + destruct (Req_dec (x n) 0) as [Z|Z].
      * right; intros k Hk. destruct (Nat.eq_dec k n); [subst; auto|apply H; lia].
      * left; exists n; split; auto.
Qed.
Lemma all_dec : forall n (P : nat -> Prop), (forall i, P i \/ ~ P i) -> (forall i, (i < n)%nat -> P i) \/ (exists i, (i < n)%nat /\ ~ P i).
Proof.
  induction n as [|n IH]; intros P D; [left; intros; lia|]. destruct (IH P D) as [H|[i [Hi N]]].
  - destruct (D n) as [Y|N]; [left|right; exists n; auto]. intros i Hi. destruct (Nat.eq_dec i n); [subst; auto|]. apply H; lia.
  - right. exists i. split; auto.
Qed.
