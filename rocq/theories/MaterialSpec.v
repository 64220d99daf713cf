(** Vocabulary for the statements about materials (C41, C42, C64).  A BH curve is a list of points (B, H). *)
From Coq Require Import List Arith Reals.
From Verif Require Import Base SumR AlgebraModel AlgebraSpec GeometryModel GeometrySpec MaterialModel.
Import ListNotations.
Local Open Scope R_scope.

Definition Bi (c : list (R * R)) (i : nat) : R := fst (nth i c (0, 0)).
Definition Hi (c : list (R * R)) (i : nat) : R := snd (nth i c (0, 0)).
(** the points are ordered by B *)
Definition ordered (c : list (R * R)) : Prop := forall i j, (i < j)%nat -> (j < length c)%nat -> Bi c i < Bi c j.
(** B and H increase from point to point *)
Definition increasing (c : list (R * R)) : Prop := ordered c /\ forall i j, (i < j)%nat -> (j < length c)%nat -> Hi c i < Hi c j.
(** slope dB/dH between point i and the next *)
Definition segment_slope (c : list (R * R)) (i : nat) : R := (Bi c (S i) - Bi c i) / (Hi c (S i) - Hi c i).
(** B lies between the last two points (the last included) *)
Definition in_last_interval (c : list (R * R)) (B : R) : Prop := Bi c (length c - 2) < B <= Bi c (length c - 1).
(** the field strength of the piecewise linear curve at induction B *)
Definition on_curve (c : list (R * R)) (B H : R) : Prop :=
  exists i t, (S i < length c)%nat /\ 0 <= t <= 1 /\ B = (1 - t) * Bi c i + t * Bi c (S i) /\ H = (1 - t) * Hi c i + t * Hi c (S i).
(** a material with a constant positive permeability, or with an increasing curve of two or more points *)
Definition proper_material (p : mprop ROps) : Prop :=
  (p_bh p = [] /\ 0 < p_mu p) \/ ((2 <= length (p_bh p))%nat /\ increasing (p_bh p)).
(** the look-up of material p at induction B is undefined *)
Definition off_the_end (p : mprop ROps) (B : R) : Prop := p_bh p <> [] /\ in_last_interval (p_bh p) B.
Definition no_material : mprop ROps := @mkProp ROps 0 org 0 [].
(** weight of the old value in iteration number [iter] *)
Definition weight (iter : nat) : R := exp (- INR iter / 5).
(** mu' is reached from mu by calls of updateMu with any inductions, residuals and iteration numbers *)
Inductive updates (vacuum : R) (props : list (mprop ROps)) (mu : list R) : list R -> Prop :=
| updates_none : updates vacuum props mu mu
| updates_more : forall mu1 mu2 Bs residual iter, updates vacuum props mu mu1 ->
    updateMu ROps exp vacuum Bs props mu1 residual iter = Ok mu2 -> updates vacuum props mu mu2.
