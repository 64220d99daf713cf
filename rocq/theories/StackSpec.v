(** Vocabulary for the statements about the physics of several layers joined by interconnections (C95-C98). *)
From Coq Require Import List Arith Bool.
From Coq Require Import Reals.
From Verif Require Import Base AlgebraModel AlgebraSpec SumR GeometryModel GeometrySpec MeshModel MeshSpec LayersModel LayersSpec CotSpec PhysSpec.
Import ListNotations.
Local Open Scope R_scope.

(** generateSystem succeeds, so do the calls of setVoltage (point, voltage, layer), and x solves the system that they leave *)
Definition stack_settled {A} (sigma : A -> R) (ms : list (mesh ROps A)) (links : list (link ROps)) (l : list (pt * R * nat)) (x : nat -> R) : Prop :=
  exists S S', ml_system ROps A sigma finite_R ms links = Ok S /\ ml_voltages ms S l = Ok S' /\ solves S' x.
(** the calls hold the nodes us, each a different one *)
Definition stack_held {A} (ms : list (mesh ROps A)) (l : list (pt * R * nat)) (us : list nat) : Prop :=
  Forall2 (fun c u => addresses ms (fst (fst c)) (snd c) u) l us /\ NoDup us.
(** the voltages of layer k *)
Definition share {A} (ms : list (mesh ROps A)) (x : nat -> R) (k : nat) : nat -> R := fun i => x (before ms k + i)%nat.
(** every node is joined to a held one by triangles and interconnections *)
Definition grounded {A} (ms : list (mesh ROps A)) (es : list (nat * nat)) (us : list nat) : Prop :=
  forall v, (v < nodes ms)%nat -> exists u, In u us /\ wired_to ms es u v.
(** interconnections between different layers, at most one between two nodes *)
Definition laid {A} (ms : list (mesh ROps A)) (links : list (link ROps)) (es : list (nat * nat)) : Prop := wired ms links es /\ across links /\ distinct es.
(** power: that of the layers, and conductance times squared voltage for the interconnections; g gives the conductance of a
    resistance *)
Definition stack_power {A} (sigma : A -> R) (ms : list (mesh ROps A)) (pss : list (list A)) (g : R -> R) (links : list (link ROps)) (es : list (nat * nat)) (x : nat -> R) (w : R) : Prop :=
  exists ws, length ws = length ms /\
    (forall k m ps, nth_error ms k = Some m -> nth_error pss k = Some ps -> exists wk, nth_error ws k = Some wk /\ dissipates sigma m ps (share ms x k) wk) /\
    w = suml ws (fun v => v) + links_energy g links es x.
(** the current that leaves node u into its layer and into the interconnections that end there *)
Definition stack_leaves {A} (sigma : A -> R) (ms : list (mesh ROps A)) (pss : list (list A)) (g : R -> R) (links : list (link ROps)) (es : list (nat * nat)) (x : nat -> R) (u : nat) (c : R) : Prop :=
  exists k m ps i c0, nth_error ms k = Some m /\ nth_error pss k = Some ps /\ (i < length (m_points m))%nat /\ u = (before ms k + i)%nat /\ leaves sigma m ps (share ms x k) i c0 /\
    c = c0 + suml (combine links es) (fun ke => g (k_R (fst ke)) *
      ((if Nat.eqb u (fst (snd ke)) then x u - x (snd (snd ke)) else 0) + (if Nat.eqb u (snd (snd ke)) then x u - x (fst (snd ke)) else 0))).
(** the calls for layer k *)
Definition calls_of (k : nat) (l : list (pt * R * nat)) : list (pt * R) := map fst (filter (fun c => Nat.eqb (snd c) k) l).
(** the interconnection with its resistance multiplied by c *)
Definition rescaled (c : R) (k : link ROps) : link ROps := mkLink (k_p1 k) (k_p2 k) (k_layer1 k) (k_layer2 k) (c * k_R k).
