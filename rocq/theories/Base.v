(** Outcomes, checked vectors, loops and scalar operations used by every model file. *)
From Coq Require Import String.
From Coq Require Import List Arith ZArith NArith Lia Bool.
From Coq Require Import Reals Lra.
From Coq Require Import Floats.SpecFloat.
Import ListNotations.

(** ** Outcomes *)

(** [Throw]: a C++ exception (utils.cpp, nexit/nassert; explicit throw).
    [UB]: undefined behaviour.  [NonFin]: a division by zero or the square root of a negative number
    in exact arithmetic; the C++ program goes on with inf/NaN there. *)
Inductive res (A : Type) : Type :=
| Ok (a : A)
| Throw (why : string)
| UB (why : string)
| NonFin (why : string).
Arguments Ok {A} a.
Arguments Throw {A} why.
Arguments UB {A} why.
Arguments NonFin {A} why.

Definition bind {A B} (x : res A) (f : A -> res B) : res B :=
  match x with
  | Ok a => f a
  | Throw s => Throw s
  | UB s => UB s
  | NonFin s => NonFin s
  end.
Notation "x <- e ;; k" := (bind e (fun x => k)) (at level 90, e at next level, right associativity).
Notation "' p <- e ;; k" := (bind e (fun p => k)) (at level 90, p pattern, e at next level, right associativity).

Definition is_ub {A} (r : res A) : Prop := exists s, r = UB s.
Definition is_throw {A} (r : res A) : Prop := exists s, r = Throw s.
Definition is_nonfin {A} (r : res A) : Prop := exists s, r = NonFin s.
Definition is_ok {A} (r : res A) : Prop := exists a, r = Ok a.

(** ** Checked vectors: [v[i]] as an rvalue and as an lvalue (std::vector::operator[], unchecked in C++). *)
Definition get {A} (l : list A) (i : nat) : res A :=
  match nth_error l i with Some a => Ok a | None => UB "vector index out of bounds (read)" end.

Fixpoint upd {A} (l : list A) (i : nat) (a : A) : list A :=
  match l, i with
  | [], _ => []
  | _ :: t, O => a :: t
  | h :: t, S i' => h :: upd t i' a
  end.

Definition set {A} (l : list A) (i : nat) (a : A) : res (list A) :=
  if Nat.ltb i (length l) then Ok (upd l i a) else UB "vector index out of bounds (write)".

(** ** Loops *)

(** for (i = a; i < a + n; i++) body *)
Fixpoint forM_from {S} (n a : nat) (body : nat -> S -> res S) (s : S) : res S :=
  match n with
  | O => Ok s
  | Datatypes.S n' => s' <- body a s ;; forM_from n' (Datatypes.S a) body s'
  end.
(** for (i = 0; i < n; i++) body *)
Definition forM_up {S} (n : nat) (body : nat -> S -> res S) (s : S) : res S := forM_from n 0 body s.
(** for (i = a; i < b; i++) body *)
Definition forM_range {S} (a b : nat) (body : nat -> S -> res S) (s : S) : res S := forM_from (b - a) a body s.
(** for (i = n; i-- > 0;) body *)
Fixpoint forM_down {S} (n : nat) (body : nat -> S -> res S) (s : S) : res S :=
  match n with
  | O => Ok s
  | Datatypes.S n' => s' <- body n' s ;; forM_down n' body s'
  end.
(** for (auto x : l) body *)
Fixpoint forM_list {A S} (l : list A) (body : A -> S -> res S) (s : S) : res S :=
  match l with
  | [] => Ok s
  | x :: l' => s' <- body x s ;; forM_list l' body s'
  end.

(** ** 32-bit wrap *)
Definition two32 : N := (2 ^ 32)%N.
(** conversion to uint32_t *)
Definition u32 (n : nat) : nat := N.to_nat (N.of_nat n mod two32).
(** the index is representable as uint32_t *)
Definition is_u32 (n : nat) : Prop := (N.of_nat n < two32)%N.
(** uint32_t subtraction *)
Definition u32_sub (a b : nat) : nat := Z.to_nat ((Z.of_nat a - Z.of_nat b) mod (2 ^ 32)).

(** ** Scalar operations *)
Record Ops := mkOps {
  T : Type;
  zero : T;
  one : T;
  add : T -> T -> T;
  sub : T -> T -> T;
  mul : T -> T -> T;
  div : T -> T -> res T;
  opp : T -> T;
  fabs : T -> T;
  fsqrt : T -> res T;
  ltb : T -> T -> bool;          (* C++ < : false when an argument is NaN *)
  eqb : T -> T -> bool;          (* C++ == *)
  ofZ : Z -> T;                  (* small integer literals *)
  dbl_eps : T;                   (* std::numeric_limits<double>::epsilon() = 2^-52 *)
  eps9 : T;                      (* EPSILON = 1e-9, constants.hpp 4 *)
  dbl_max : T                    (* std::numeric_limits<double>::max() *)
}.

(** a > b is b < a; a <= b and a >= b are written with [ltb]/[eqb] so that NaN makes them false. *)
Definition gtb (o : Ops) (a b : T o) : bool := ltb o b a.
Definition leb (o : Ops) (a b : T o) : bool := ltb o a b || eqb o a b.
Definition geb (o : Ops) (a b : T o) : bool := ltb o b a || eqb o a b.

(** *** Exact arithmetic *)
Definition Rltb (a b : R) : bool := if Rlt_dec a b then true else false.
Definition Reqb (a b : R) : bool := if Req_EM_T a b then true else false.
Definition Rdivr (a b : R) : res R := if Req_EM_T b 0 then NonFin "division by zero" else Ok (a / b)%R.
Definition Rsqrtr (a : R) : res R := if Rlt_dec a 0 then NonFin "sqrt of a negative number" else Ok (R_sqrt.sqrt a).

Definition ROps : Ops := {|
  T := R; zero := 0%R; one := 1%R;
  add := Rplus; sub := Rminus; mul := Rmult; div := Rdivr; opp := Ropp; fabs := Rabs; fsqrt := Rsqrtr;
  ltb := Rltb; eqb := Reqb; ofZ := IZR;
  dbl_eps := (/ 2 ^ 52)%R; eps9 := (/ 10 ^ 9)%R;
  dbl_max := ((2 - / 2 ^ 52) * 2 ^ 1023)%R |}.

(** *** IEEE binary64, round to nearest even *)
Definition f64 := spec_float.
Definition f64_prec := 53%Z.
Definition f64_emax := 1024%Z.
Definition f64_ofZ (z : Z) : f64 := binary_normalize f64_prec f64_emax z 0 false.
Definition f64_div := SFdiv f64_prec f64_emax.
Definition FOps : Ops := {|
  T := f64; zero := S754_zero false; one := f64_ofZ 1;
  add := SFadd f64_prec f64_emax; sub := SFsub f64_prec f64_emax; mul := SFmul f64_prec f64_emax;
  div := fun a b => Ok (f64_div a b); opp := SFopp; fabs := SFabs;
  fsqrt := fun a => Ok (SFsqrt f64_prec f64_emax a);
  ltb := SFltb; eqb := SFeqb; ofZ := f64_ofZ;
  dbl_eps := S754_finite false (2 ^ 52)%positive (-104);
  eps9 := f64_div (f64_ofZ 1) (f64_ofZ 1000000000);
  dbl_max := S754_finite false (2 ^ 53 - 1)%positive 971 |}.

Definition f64_is_nan (x : f64) : bool := match x with S754_nan => true | _ => false end.

(** ** Lemmas about the base layer *)

Lemma bind_ok : forall A B (x : res A) (f : A -> res B) b,
  bind x f = Ok b -> exists a, x = Ok a /\ f a = Ok b.
Proof. intros A B x f b H; destruct x; simpl in H; try discriminate; eauto. Qed.

Lemma get_ok : forall A (l : list A) i a, get l i = Ok a <-> nth_error l i = Some a.
Proof. intros; unfold get; destruct (nth_error l i); split; intros H; try discriminate; inversion H; auto. Qed.

Lemma get_lt : forall A (l : list A) i d, i < length l -> get l i = Ok (nth i l d).
Proof. intros A l i d H; unfold get. rewrite (nth_error_nth' l d H); reflexivity. Qed.

Lemma get_ge : forall A (l : list A) i, length l <= i -> is_ub (get l i).
Proof. intros A l i H; unfold get. apply nth_error_None in H; rewrite H. eexists; reflexivity. Qed.

Lemma set_lt : forall A (l : list A) i a, i < length l -> set l i a = Ok (upd l i a).
Proof. intros A l i a H; unfold set. apply Nat.ltb_lt in H; rewrite H; reflexivity. Qed.

Lemma set_ge : forall A (l : list A) i a, length l <= i -> is_ub (set l i a).
Proof. intros A l i a H; unfold set. apply Nat.ltb_ge in H; rewrite H. eexists; reflexivity. Qed.

Lemma upd_length : forall A (l : list A) i a, length (upd l i a) = length l.
Proof. induction l as [|x l IH]; intros [|i] a; simpl; auto. Qed.

Lemma nth_upd : forall A (l : list A) i j a d,
  i < length l -> nth j (upd l i a) d = if Nat.eqb j i then a else nth j l d.
Proof.
  induction l as [|x l IH]; intros i j a d H; simpl in H; [lia|].
  destruct i, j; simpl; auto. rewrite IH by lia. reflexivity.
Qed.

Lemma nth_upd_same : forall A (l : list A) i a d, i < length l -> nth i (upd l i a) d = a.
Proof. intros; rewrite nth_upd by auto; rewrite Nat.eqb_refl; auto. Qed.

Lemma nth_upd_other : forall A (l : list A) i j a d, j <> i -> nth j (upd l i a) d = nth j l d.
Proof.
  induction l as [|x l IH]; intros i j a d H; simpl; auto.
  destruct i, j; simpl; auto; try congruence.
Qed.

Lemma nth_error_upd_other : forall A (l : list A) i j a, j <> i -> nth_error (upd l i a) j = nth_error l j.
Proof.
  induction l as [|x l IH]; intros i j a H; simpl; auto.
  destruct i, j; simpl; auto; try congruence.
Qed.

Lemma nth_error_upd_same : forall A (l : list A) i a, i < length l -> nth_error (upd l i a) i = Some a.
Proof.
  induction l as [|x l IH]; intros i a H; simpl in *; [lia|].
  destruct i; simpl; auto. apply IH; lia.
Qed.

Lemma list_ext : forall A (d : A) (l1 l2 : list A),
  length l1 = length l2 -> (forall i, i < length l1 -> nth i l1 d = nth i l2 d) -> l1 = l2.
Proof. intros; eapply nth_ext; eauto. Qed.

(** total-correctness rules for the loops *)
Lemma forM_from_inv : forall S (Inv : nat -> S -> Prop) (body : nat -> S -> res S) n a s,
  Inv a s ->
  (forall i s, a <= i < a + n -> Inv i s -> exists s', body i s = Ok s' /\ Inv (Datatypes.S i) s') ->
  exists s', forM_from n a body s = Ok s' /\ Inv (a + n) s'.
Proof.
  intros S Inv body; induction n as [|n IH]; intros a s H0 Hs; simpl.
  - exists s; rewrite Nat.add_0_r; auto.
  - destruct (Hs a s) as [s' [E I]]; [lia|auto|]. rewrite E; simpl.
    destruct (IH (Datatypes.S a) s' I) as [s2 [E2 I2]].
    + intros; apply Hs; [lia|auto].
    + exists s2; split; auto. replace (a + Datatypes.S n) with (Datatypes.S a + n) by lia; auto.
Qed.

Lemma forM_up_inv : forall S (Inv : nat -> S -> Prop) (body : nat -> S -> res S) n s,
  Inv 0 s ->
  (forall i s, i < n -> Inv i s -> exists s', body i s = Ok s' /\ Inv (Datatypes.S i) s') ->
  exists s', forM_up n body s = Ok s' /\ Inv n s'.
Proof. intros; unfold forM_up. apply (forM_from_inv S Inv body n 0 s); auto. intros; apply H0; auto; lia. Qed.

Lemma forM_range_inv : forall S (Inv : nat -> S -> Prop) (body : nat -> S -> res S) a b s,
  a <= b -> Inv a s ->
  (forall i s, a <= i < b -> Inv i s -> exists s', body i s = Ok s' /\ Inv (Datatypes.S i) s') ->
  exists s', forM_range a b body s = Ok s' /\ Inv b s'.
Proof.
  intros; unfold forM_range.
  destruct (forM_from_inv S Inv body (b - a) a s H0) as [s' [E I]].
  - intros; apply H1; auto; lia.
  - exists s'; split; auto. replace b with (a + (b - a)) by lia; auto.
Qed.

Lemma forM_down_inv : forall S (Inv : nat -> S -> Prop) (body : nat -> S -> res S) n s,
  Inv n s ->
  (forall i s, i < n -> Inv (Datatypes.S i) s -> exists s', body i s = Ok s' /\ Inv i s') ->
  exists s', forM_down n body s = Ok s' /\ Inv 0 s'.
Proof.
  intros S Inv body; induction n as [|n IH]; intros s H0 Hs; simpl.
  - exists s; auto.
  - destruct (Hs n s) as [s' [E I]]; [lia|auto|]. rewrite E; simpl. apply IH; auto.
Qed.

(** invariant rule over a list: [done] is the prefix already processed *)
Lemma forM_list_inv : forall A S (Inv : list A -> S -> Prop) (body : A -> S -> res S) l s,
  Inv [] s ->
  (forall pre x post s, l = pre ++ x :: post -> Inv pre s -> exists s', body x s = Ok s' /\ Inv (pre ++ [x]) s') ->
  exists s', forM_list l body s = Ok s' /\ Inv l s'.
Proof.
  intros A S Inv body l s H0 Hs.
  assert (G : forall post pre s, l = pre ++ post -> Inv pre s ->
              exists s', forM_list post body s = Ok s' /\ Inv l s').
  { induction post as [|x post IH]; intros pre s1 E I; simpl.
    - exists s1; split; auto. rewrite app_nil_r in E; subst; auto.
    - destruct (Hs pre x post s1 E I) as [s' [E' I']]. rewrite E'; simpl.
      apply (IH (pre ++ [x]) s'); auto. rewrite <- app_assoc; auto. }
  apply (G l [] s); auto.
Qed.

Lemma forM_list_app : forall A S (body : A -> S -> res S) l1 l2 s,
  forM_list (l1 ++ l2) body s = (s' <- forM_list l1 body s ;; forM_list l2 body s').
Proof.
  induction l1 as [|x l1 IH]; intros l2 s; simpl; auto.
  destruct (body x s); simpl; auto.
Qed.

Lemma forM_from_app : forall S (body : nat -> S -> res S) n1 n2 a s,
  forM_from (n1 + n2) a body s = (s' <- forM_from n1 a body s ;; forM_from n2 (a + n1) body s').
Proof.
  induction n1 as [|n1 IH]; intros n2 a s; simpl.
  - rewrite Nat.add_0_r; auto.
  - destruct (body a s); simpl; auto. rewrite IH.
    replace (a + Datatypes.S n1) with (Datatypes.S a + n1) by lia; auto.
Qed.

Lemma u32_id : forall n, is_u32 n -> u32 n = n.
Proof. intros n H; unfold u32, is_u32 in *. rewrite N.mod_small by auto. apply Nat2N.id. Qed.

Lemma is_u32_le : forall a b, a <= b -> is_u32 b -> is_u32 a.
Proof. unfold is_u32; intros; lia. Qed.

Lemma u32_sub_le : forall a b, b <= a -> is_u32 a -> u32_sub a b = a - b.
Proof.
  intros a b H Ha; unfold u32_sub, is_u32, two32 in *.
  change (2 ^ 32)%N with 4294967296%N in Ha. change (2 ^ 32)%Z with 4294967296%Z.
  rewrite Z.mod_small by lia. lia.
Qed.

(** real scalars *)
Lemma Rltb_true : forall a b, Rltb a b = true <-> (a < b)%R.
Proof. intros; unfold Rltb; destruct (Rlt_dec a b); split; intros; auto; discriminate. Qed.
Lemma Rltb_false : forall a b, Rltb a b = false <-> (b <= a)%R.
Proof. intros; unfold Rltb; destruct (Rlt_dec a b); split; intros; auto; try discriminate; lra. Qed.
Lemma Reqb_true : forall a b, Reqb a b = true <-> a = b.
Proof. intros; unfold Reqb; destruct (Req_EM_T a b); split; intros; auto; discriminate. Qed.
Lemma Reqb_false : forall a b, Reqb a b = false <-> a <> b.
Proof. intros; unfold Reqb; destruct (Req_EM_T a b); split; intros; auto; try discriminate; contradiction. Qed.
Lemma Rdivr_ok : forall a b, b <> 0%R -> Rdivr a b = Ok (a / b)%R.
Proof. intros; unfold Rdivr; destruct (Req_EM_T b 0); auto; contradiction. Qed.
Lemma Rdivr_zero : forall a, is_nonfin (Rdivr a 0).
Proof. intros; unfold Rdivr; destruct (Req_EM_T 0 0); [eexists; reflexivity|contradiction]. Qed.
Lemma Rsqrtr_ok : forall a, (0 <= a)%R -> Rsqrtr a = Ok (R_sqrt.sqrt a).
Proof. intros; unfold Rsqrtr; destruct (Rlt_dec a 0); auto; lra. Qed.

Lemma leb_R : forall a b : R, leb ROps a b = true <-> (a <= b)%R.
Proof.
  intros; unfold leb; simpl. rewrite orb_true_iff, Rltb_true, Reqb_true. lra.
Qed.
Lemma geb_R : forall a b : R, geb ROps a b = true <-> (b <= a)%R.
Proof.
  intros; unfold geb; simpl. rewrite orb_true_iff, Rltb_true, Reqb_true. lra.
Qed.
Lemma gtb_R : forall a b : R, gtb ROps a b = true <-> (b < a)%R.
Proof. intros; unfold gtb; simpl. apply Rltb_true. Qed.

(** the carrier of [ROps] is [R] *)
Ltac toR := change (T ROps) with R in *.

Lemma nth_error_ext : forall A (l1 l2 : list A), (forall i, nth_error l1 i = nth_error l2 i) -> l1 = l2.
Proof.
  induction l1 as [|x l1 IH]; intros [|y l2] H; auto; try (specialize (H 0%nat); discriminate).
  pose proof (H 0%nat) as H0. inversion H0. f_equal. apply IH. intros i. apply (H (S i)).
Qed.
