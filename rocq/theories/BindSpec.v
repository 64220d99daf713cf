(** Vocabulary for the statements about the Python interface. *)
From Coq Require Import String.
From Coq Require Import List Arith ZArith NArith Bool.
From Verif Require Import Base AlgebraModel GeometryModel DrawingModel MeshModel LayersModel BindModel.
Import ListNotations.

(** the Python object is a number: a float, or an int (bool is one) *)
Inductive number {o} : py o -> T o -> Prop :=
| n_float : forall x, number (PyFloat x) x
| n_int : forall z, number (PyInt z) (ofZ o z)
| n_bool : forall b, number (PyBool b) (ofZ o (Z.b2z b)).
Inductive integer {o} : py o -> Z -> Prop :=
| i_int : forall z, integer (PyInt z) z
| i_bool : forall b, integer (PyBool b) (Z.b2z b).
(** a list starting with the two coordinates of p *)
Definition coords {o} (l : list (py o)) (p : vec o) : Prop :=
  exists a b rest, l = a :: b :: rest /\ number a (vx p) /\ number b (vy p).
(** a list with exactly the two coordinates of p *)
Definition vertex {o} (x : py o) (p : vec o) : Prop := exists a b, x = PyList [a; b] /\ number a (vx p) /\ number b (vy p).
(** a list that ends before its second number *)
Definition short {o} (l : list (py o)) : Prop := l = [] \/ exists a v, l = [a] /\ number a v.
(** the number of layers fits the machine *)
Definition holds_layers {o} (s : sim o) : Prop := (Z.of_nat (length (s_draw s)) < 2 ^ 64)%Z.
(** the drawing call c on layer n changes s into s', with result r *)
Definition drawn {o} (lm : libm o) (n : nat) (c : call o (T o)) (s s' : sim o) (r : res unit) : Prop :=
  exists d d', nth_error (s_draw s) n = Some d /\ exec o lm (T o) (eqb o) c d = (d', r) /\
  nth_error (s_draw s') n = Some d' /\ length (s_draw s') = length (s_draw s) /\
  (forall k, k <> n -> nth_error (s_draw s') k = nth_error (s_draw s) k) /\
  s_depths s' = s_depths s /\ s_mesh s' = s_mesh s /\ s_links s' = s_links s.
(** there is no layer z, or the C++ call does not return *)
Definition breaks {o} (lm : libm o) (z : Z) (c : call o (T o)) (s : sim o) : Prop :=
  (forall n, z = Z.of_nat n -> nth_error (s_draw s) n = None) \/
  exists n d, z = Z.of_nat n /\ nth_error (s_draw s) n = Some d /\
    (is_throw (snd (exec o lm (T o) (eqb o) c d)) \/ is_ub (snd (exec o lm (T o) (eqb o) c d))).
(** argument lists of the right number and types *)
Definition rectangle_args {o} (args : list (py o)) : Prop := exists la lb x z, args = [PyList la; PyList lb; x] /\ integer x z.
Definition region_args {o} (args : list (py o)) : Prop := exists la v x z, args = [PyList la; PyFloat v; x] /\ integer x z.
Definition polygon_args {o} (args : list (py o)) : Prop := exists la x z, args = [PyList la; x] /\ integer x z.
Definition link_args {o} (args : list (py o)) : Prop :=
  exists la lb x y u z w r, args = [PyList la; PyList lb; x; y; u] /\ integer x z /\ integer y w /\ number u r.
Definition voltage_args {o} (args : list (py o)) : Prop :=
  exists S la u x v z, args = [PySystem S; PyList la; u; x] /\ number u v /\ integer x z.
(** corner u of a triangle of layer k, as a row number of the lists of all layers *)
Definition row_of {o A} (ms : list (mesh o A)) (k u : nat) : nat :=
  list_sum (map (fun m => length (m_points m)) (firstn k ms)) + u.
(** the layer of the j-th triangle of all layers *)
Fixpoint layer_of {o A} (ms : list (mesh o A)) (j : nat) : nat :=
  match ms with
  | [] => 0
  | m :: ms' => if Nat.ltb j (length (m_tris m)) then 0 else S (layer_of ms' (j - length (m_tris m)))
  end.
(** the arguments after the system name a point, a voltage and a layer *)
Definition voltage_call {o} (args : list (py o)) (c : vec o * T o * nat) : Prop :=
  exists la u x, args = [PyList la; u; x] /\ coords la (fst (fst c)) /\ number u (snd (fst c)) /\ integer x (Z.of_nat (snd c)).
(** one call of set_voltage after the other on the same system *)
Fixpoint py_voltages {o} (bi : T o -> bool) (s : sim o) (M : dsystem o) (cs : list (list (py o))) : res (dsystem o) :=
  match cs with
  | [] => Ok M
  | c :: cs' => M' <- py_set_voltage o bi (PySystem (Some M) :: c) s ;; py_voltages bi s M' cs'
  end.
(** the optional arguments of generate_system: refine (True), the largest area (1) and the smallest angle (33) *)
Inductive options {o} : list (py o) -> bool * T o * T o -> Prop :=
| o_none : options [] (true, one o, ofZ o 33)
| o_refine : forall b, options [PyBool b] (b, one o, ofZ o 33)
| o_area : forall b x m, number x m -> options [PyBool b; x] (b, m, ofZ o 33)
| o_angle : forall b x m y a, number x m -> number y a -> options [PyBool b; x; y] (b, m, a).
(** the drawings of all layers after refinement, if it was asked for *)
Definition refined {o} (lm : libm o) (refine : bool) (ds ds' : list (drawing o (T o))) : Prop :=
  if refine then Forall2 (fun d d' => addRefiningPoints o lm (T o) d = (d', Ok tt)) ds ds' else ds' = ds.
