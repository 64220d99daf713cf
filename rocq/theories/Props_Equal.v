(** Property C76: equality of magnetostatic materials.  Model in MaterialModel.v. *)
From Coq Require Import String.
From Coq Require Import List Arith ZArith Bool Lia Reals Lra.
From Verif Require Import Base GeometryModel GeometrySpec Geometry_proofs MaterialModel.
Import ListNotations.
Local Open Scope R_scope.

Lemma Reqb_iff : forall x y : R, eqb ROps x y = true <-> x = y.
Proof. intros x y. cbn [eqb ROps]. unfold Reqb. destruct (Req_EM_T x y); split; auto; congruence. Qed.
Lemma bh_eqb_iff : forall a b : list (R * R), bh_eqb ROps a b = true <-> a = b.
Proof.
  induction a as [|[b1 h1] a IH]; intros [|[b2 h2] b]; cbn [bh_eqb]; try (split; intros; congruence).
  rewrite !andb_true_iff, IH. cbn [fst snd]. rewrite !Reqb_iff. split; [intros [[-> ->] ->]; auto|intros H; injection H as -> -> ->; auto].
Qed.
(** two materials are equal when permeability, current density and BH curve are and the magnetisations differ by less than 1e-9 *)
Theorem C76_equal : forall p q : mprop ROps, exists b, prop_eqb ROps p q = Ok b /\
  (b = true <-> p_mu p = p_mu q /\ p_J p = p_J q /\ dist (p_M p) (p_M q) < / 10 ^ 9 /\ p_bh p = p_bh q).
Proof.
  intros p q. unfold prop_eqb. destruct (eqb ROps (p_mu p) (p_mu q) && eqb ROps (p_J p) (p_J q))%bool eqn:E.
  - apply andb_true_iff in E. destruct E as [E1 E2]. apply Reqb_iff in E1. apply Reqb_iff in E2. rewrite vec_eqb_R. cbn [bind]. eexists. split; [reflexivity|].
    rewrite andb_true_iff, bh_eqb_iff. change eps9R with (/ 10 ^ 9). rewrite Rltb_true. tauto.
  - exists false. split; auto. split; [discriminate|]. intros [H1 [H2 _]]. apply Reqb_iff in H1. apply Reqb_iff in H2. rewrite H1, H2 in E. discriminate.
Qed.
Print Assumptions C76_equal.
Example C76_example : prop_eqb ROps (@mkProp ROps 1 (P 0 0) 2 [(1, 3); (2, 5)]) (@mkProp ROps 1 (P 0 0) 2 [(1, 3); (2, 6)]) = Ok false /\
  prop_eqb ROps (@mkProp ROps 1 (P 0 0) 2 [(1, 3)]) (@mkProp ROps 1 (P 0 0) 2 [(1, 3)]) = Ok true.
Proof.
  split.
  - destruct (C76_equal (@mkProp ROps 1 (P 0 0) 2 [(1, 3); (2, 5)]) (@mkProp ROps 1 (P 0 0) 2 [(1, 3); (2, 6)])) as [b [-> H]]. destruct b; auto. exfalso. destruct H as [H _]. destruct (H eq_refl) as [_ [_ [_ Q]]]. injection Q as Q. lra.
  - destruct (C76_equal (@mkProp ROps 1 (P 0 0) 2 [(1, 3)]) (@mkProp ROps 1 (P 0 0) 2 [(1, 3)])) as [b [-> H]]. destruct b; auto. exfalso. destruct H as [_ H]. discriminate H. repeat (split; auto).
    unfold dist. cbn [p_M]. rewrite px_P, py_P. replace ((0 - 0) * (0 - 0) + (0 - 0) * (0 - 0)) with 0 by ring. rewrite sqrt_0. apply Rinv_0_lt_compat, pow_lt. lra.
Qed.
