(** Vocabulary for the statements about voltages, layers and interconnections. *)
From Coq Require Import String.
From Coq Require Import List Arith ZArith NArith Bool.
From Coq Require Import Reals.
From Verif Require Import Base SumR AlgebraModel AlgebraSpec GeometryModel GeometrySpec DrawingModel DrawingSpec MeshModel MeshSpec LayersModel.
Import ListNotations.

(** a real number is below INFINITY *)
Definition finite_R (x : T ROps) : bool := true.
(** i is the first of the points closest to p *)
Definition closest (pts : list pt) (p : pt) (i : nat) : Prop :=
  (i < length pts)%nat /\
  (forall j, (j < length pts)%nat -> (dist p (nth i pts org) <= dist p (nth j pts org))%R) /\
  (forall j, (j < i)%nat -> (dist p (nth i pts org) < dist p (nth j pts org))%R).
(** number of nodes of all layers, and of the layers before layer k *)
Definition nodes {o A} (ms : list (mesh o A)) : nat := list_sum (map (fun m => length (m_points m)) ms).
Definition before {o A} (ms : list (mesh o A)) (k : nat) : nat := nodes (firstn k ms).
Definition triangles {o A} (ms : list (mesh o A)) : nat := list_sum (map (fun m => length (m_tris m)) ms).
(** the first and the last value given to a node by a list of (node, value) *)
Definition first_value (l : list (nat * R)) (i : nat) : option R := option_map snd (find (fun p => Nat.eqb (fst p) i) l).
Definition last_value (l : list (nat * R)) (i : nat) : option R := first_value (rev l) i.
(** x with the first values of l imposed *)
Definition imposed (l : list (nat * R)) (x : nat -> R) : nat -> R := fun i => match first_value l i with Some v => v | None => x i end.

(** one call of setVoltage after the other: (point, voltage) and (point, voltage, layer) *)
Fixpoint voltages {A} (m : mesh ROps A) (S : rsys) (l : list (pt * R)) : res rsys :=
  match l with
  | [] => Ok S
  | (p, v) :: l' => S' <- setVoltage ROps A finite_R m S p v ;; voltages m S' l'
  end.
Fixpoint ml_voltages {A} (ms : list (mesh ROps A)) (S : rsys) (l : list (pt * R * nat)) : res rsys :=
  match l with
  | [] => Ok S
  | (p, v, k) :: l' => S' <- ml_setVoltage ROps A finite_R ms S p v k ;; ml_voltages ms S' l'
  end.
(** the call addresses node u: the closest node of its layer *)
Definition addresses {A} (ms : list (mesh ROps A)) (p : pt) (k u : nat) : Prop :=
  exists m i, nth_error ms k = Some m /\ closest (m_points m) p i /\ u = (before ms k + i)%nat.

(** layers ready for assembly, together a 32-bit number of nodes *)
Definition ready_layers {A} (ms : list (mesh ROps A)) (pss : list (list A)) : Prop :=
  Forall2 fem_ready ms pss /\ Forall all_used ms /\ is_u32 (nodes ms).
(** the interconnection joins nodes u and v *)
Definition joins {A} (ms : list (mesh ROps A)) (k : link ROps) (u v : nat) : Prop :=
  addresses ms (k_p1 k) (k_layer1 k) u /\ addresses ms (k_p2 k) (k_layer2 k) v.
Local Open Scope R_scope.
(** interconnections with a non-zero resistance, and the pairs of nodes they join *)
Definition wired {A} (ms : list (mesh ROps A)) (links : list (link ROps)) (es : list (nat * nat)) : Prop :=
  Forall2 (fun k e => joins ms k (fst e) (snd e)) links es /\ Forall (fun k : link ROps => k_R k <> 0) links.
(** no two of them join the same two nodes *)
Definition distinct (es : list (nat * nat)) : Prop :=
  ForallOrdPairs (fun e f => e <> f /\ e <> (snd f, fst f)) es.
(** all of them join different layers *)
Definition across (links : list (link ROps)) : Prop := Forall (fun k : link ROps => k_layer1 k <> k_layer2 k) links.
(** what the layers dissipate and what flows through the interconnections *)
Definition layers_energy {A} (ms : list (mesh ROps A)) (Ss : list rsys) (x : nat -> R) : R :=
  sumn (length ms) (fun k => quad (sdim (nth k Ss (mkSys R (mkCoo [] 0) []))) (value 0 (sA R (nth k Ss (mkSys R (mkCoo [] 0) [])))) (fun i => x (before ms k + i)%nat)).
Definition links_energy (g : R -> R) (links : list (link ROps)) (es : list (nat * nat)) (x : nat -> R) : R :=
  suml (combine links es) (fun ke => g (k_R (fst ke)) * (x (fst (snd ke)) - x (snd (snd ke))) ^ 2).
(** nodes joined by triangles of their layer or by interconnections *)
Inductive wired_to {A} (ms : list (mesh ROps A)) (es : list (nat * nat)) : nat -> nat -> Prop :=
| wt_refl : forall u, wired_to ms es u u
| wt_tri : forall u k m v w, wired_to ms es u (before ms k + v) -> nth_error ms k = Some m -> linked m v w -> wired_to ms es u (before ms k + w)
| wt_link : forall u v w, wired_to ms es u v -> (In (v, w) es \/ In (w, v) es) -> wired_to ms es u w.
(** the resistance of the last interconnection between nodes a and b *)
Fixpoint last_link (l : list (nat * nat * R)) (a b : nat) : option R :=
  match l with
  | [] => None
  | (u, v, r) :: l' =>
      match last_link l' a b with
      | Some q => Some q
      | None => if (Nat.eqb a u && Nat.eqb b v || Nat.eqb a v && Nat.eqb b u)%bool then Some r else None
      end
  end.
(** the conductances at node a, both ends counted *)
Definition at_node (l : list (nat * nat * R)) (a : nat) : R :=
  suml l (fun e => (if Nat.eqb (fst (fst e)) a then 2 / snd e else 0) + (if Nat.eqb (snd (fst e)) a then 2 / snd e else 0)).
