(** Model of the Python bindings, python/nikfemm.cpp: the class MultiLayerCurrentDensitySimulation and the class System.
    Python integers that overflow a double are left out, memory errors too; reference counts are in RefModel.v.  The Triangle library is a
    parameter ([triangulate], given the area, the angle and the refined drawings; [None]: it ends the process).  [UB]: undefined behaviour, or the end
    of the process by a C++ exception that no frame catches. *)
From Coq Require Import String.
From Coq Require Import List Arith ZArith NArith Bool.
From Verif Require Import Base AlgebraModel SolversModel GeometryModel DrawingModel MeshModel LayersModel.
Import ListNotations.

Section Bind.
Variable o : Ops.
Notation T := (T o).
Notation vec := (vec o).
(** CurrentDensityProp holds the conductivity only (current_density/properties.hpp 7-12) *)
Notation drawing := (drawing o T).
Notation mesh := (mesh o T).
Variable lm : libm o.
Variable below_inf : T -> bool.
Variable triangulate : T -> Z -> list drawing -> option (list mesh).

(** Python objects; a System (python/nikfemm.cpp 10-26) holds a pointer, NULL when made by System() *)
Inductive py := PyFloat (x : T) | PyInt (z : Z) | PyBool (b : bool) | PyList (l : list py) | PySystem (s : option (dsystem o)) | PyOther.
(** PyFloat_Check, PyLong_Check (bool is a subclass of int), PyObject_TypeCheck against list and System, PyBool_Check *)
Definition is_float (x : py) : bool := match x with PyFloat _ => true | _ => false end.
Definition is_long (x : py) : bool := match x with PyInt _ | PyBool _ => true | _ => false end.
Definition is_list (x : py) : bool := match x with PyList _ => true | _ => false end.
Definition is_system (x : py) : bool := match x with PySystem _ => true | _ => false end.
Definition is_bool (x : py) : bool := match x with PyBool _ => true | _ => false end.
(** the value of an int *)
Definition as_Z (x : py) : Z := match x with PyInt z => z | PyBool b => if b then 1 else 0 | _ => 0 end.
(** a float or an int as a double; [None]: the NULL of PyList_GetItem past the end, which PyFloat_Check dereferences *)
Definition as_number (x : option py) : res T :=
  match x with
  | None => UB "PyFloat_Check(NULL)"
  | Some (PyFloat x) => Ok x
  | Some (PyInt _ as x) | Some (PyBool _ as x) => Ok (ofZ o (as_Z x))
  | Some _ => Throw "TypeError"
  end.
Definition items (x : py) : list py := match x with PyList l => l | _ => [] end.
(** 287-299, 350-366, 410-425, 458-470: two coordinates *)
Definition as_point (x : py) : res vec :=
  a <- as_number (nth_error (items x) 0) ;; b <- as_number (nth_error (items x) 1) ;; Ok (mkV a b).
(** PyLong_AsUnsignedLong: out of range is (unsigned long)-1 with an exception set *)
Definition in_ulong (x : py) : bool := (Z.leb 0 (as_Z x) && Z.ltb (as_Z x) (2 ^ 64))%Z.
Definition as_ulong (x : py) : nat := if in_ulong x then Z.to_nat (as_Z x) else N.to_nat (2 ^ 64 - 1).

(** 39-42: the simulation behind an object; the meshes are there once generate_system has run *)
Record sim := mkSim { s_draw : list drawing; s_depths : list T; s_mesh : option (list mesh); s_links : list (link o) }.
Definition method (X : Type) : Type := sim -> sim * res X.
(** a C++ exception that reaches the interpreter ends the process *)
Definition uncaught {X} (r : res X) : res X := match r with Throw s => UB "uncaught C++ exception" | r => r end.
(** an exception set although a result is returned: SystemError *)
Definition leave (x : py) : res unit := if in_ulong x then Ok tt else Throw "SystemError".

(** 49-101: the constructor; num_layers is read with format I (int, no overflow check), depths must be a list *)
Definition py_new (args : list py) : res sim :=
  match args with
  | [n; depths] =>
      if negb (is_long n) then Throw "TypeError"
      else
        let num := Z.to_nat (as_Z n mod 2 ^ 32) in
        match depths with
        | PyList l =>
            if negb (Nat.eqb (length l) num) then Throw "ValueError"
            else ds <- map_res (fun x => as_number (Some x)) l ;; Ok (mkSim (repeat (empty_drawing o T) num) ds None [])
        | _ => Throw "ValueError"
        end
  | _ => Throw "TypeError"
  end.

(** meshes[layer_id].drawing.draw...: no bounds check *)
Definition on_layer (x : py) (c : call o T) : method unit := fun s =>
  match nth_error (s_draw s) (as_ulong x) with
  | None => (s, UB "vector index out of bounds")
  | Some d =>
      let '(d', r) := exec o lm T (eqb o) c d in
      (mkSim (upd (s_draw s) (as_ulong x) d') (s_depths s) (s_mesh s) (s_links s), uncaught r)
  end.
Definition pass {X Y} (r : res X) (k : X -> method Y) : method Y := fun s =>
  match r with Ok x => k x s | Throw e => (s, Throw e) | UB e => (s, UB e) | NonFin e => (s, NonFin e) end.

(** 387-434: draw_rectangle *)
Definition py_draw_rectangle (args : list py) : method unit := fun s =>
  match args with
  | [a; b; l] =>
      if is_list a && is_list b && is_long l then
        pass (p <- as_point a ;; q <- as_point b ;; Ok (DrawRectangle p q)) (on_layer l) s
      else (s, Throw "TypeError")
  | _ => (s, Throw "TypeError")
  end.
(** 436-480: draw_region; the conductivity must be a float *)
Definition py_draw_region (args : list py) : method unit := fun s =>
  match args with
  | [a; PyFloat v; l] =>
      if is_list a && is_long l then pass (p <- as_point a ;; Ok (DrawRegion p v)) (on_layer l) s
      else (s, Throw "TypeError")
  | _ => (s, Throw "TypeError")
  end.
(** 501-524: the vertices; each must be a list of two *)
Definition as_vertex (x : py) : res vec :=
  match x with
  | PyList [a; b] => u <- as_number (Some a) ;; v <- as_number (Some b) ;; Ok (mkV u v)
  | _ => Throw "TypeError"
  end.
(** 482-533: draw_polygon *)
Definition py_draw_polygon (args : list py) : method unit := fun s =>
  match args with
  | [PyList l; k] =>
      if is_long k then pass (ps <- map_res as_vertex l ;; Ok (DrawPolygon ps)) (on_layer k) s else (s, Throw "TypeError")
  | _ => (s, Throw "TypeError")
  end.
(** 319-385: add_interconnection; the layers are not checked *)
Definition py_add_interconnection (args : list py) : method unit := fun s =>
  match args with
  | [a; b; k; l; r] =>
      if is_list a && is_list b && is_long k && is_long l && (is_float r || is_long r) then
        pass (p <- as_point a ;; q <- as_point b ;; x <- as_number (Some r) ;; Ok (mkLink p q (as_ulong k) (as_ulong l) x))
          (fun w s => (mkSim (s_draw s) (s_depths s) (s_mesh s) (s_links s ++ [w]), _ <- leave k ;; leave l)) s
      else (s, Throw "TypeError")
  | _ => (s, Throw "TypeError")
  end.
(** 263-317: set_voltage; gives the new value of the system.  Before generate_system the number of points is not
    initialised (mesh/mesh.hpp). *)
Definition py_set_voltage (args : list py) (s : sim) : res (dsystem o) :=
  match args with
  | [PySystem y; a; v; l] =>
      if is_list a && (is_float v || is_long v) && is_long l then
        p <- as_point a ;;
        x <- as_number (Some v) ;;
        match y, s_mesh s with
        | Some M, Some ms => uncaught (ml_setVoltage o T below_inf ms M p x (as_ulong l))
        | _, _ => UB "null or uninitialised"
        end
      else Throw "TypeError"
  | _ => Throw "TypeError"
  end.

(** 152-157, 208-213: the offsets *)
Definition node_offsets (ms : list mesh) : list nat := offsets (map (fun m => length (m_points m)) ms).
(** 160-171: the triangles, layer by layer, with global node numbers *)
Definition global_tri (off : nat) (t : tri) : tri := (t0 t + off, t1 t + off, t2 t + off).
Definition py_triangles (ms : list mesh) : list (list tri) :=
  map (fun om => map (global_tri (fst om)) (m_tris (snd om))) (combine (node_offsets ms) ms).
(** 173-181: the vertices of all layers *)
Definition py_vertices (ms : list mesh) : res (list vec) :=
  forM_list (combine (node_offsets ms) ms)
    (fun om l => forM_up (length (m_points (snd om))) (fun j l => p <- get (m_points (snd om)) j ;; set l (j + fst om) p) l)
    (repeat (vzero o) (total (map (fun m => length (m_points m)) ms))).
(** 103-186: generate_system (arguments: 114-135).  [to_int]: the conversion of min_angle to int *)
Variable to_int : T -> res Z.
Definition optional (args : list py) : res (bool * T * T) :=
  a <- match nth_error args 2 with
       | None => Ok (ofZ o 33)
       | Some x => as_number (Some x)
       end ;;
  m <- match nth_error args 1 with
       | None => Ok (one o)
       | Some x => as_number (Some x)
       end ;;
  r <- match nth_error args 0 with
       | None => Ok true
       | Some (PyBool b) => Ok b
       | Some _ => Throw "TypeError"
       end ;;
  Ok (r, m, a).
(** multilayer_simulation.cpp 55-59 *)
Fixpoint refine_all (ds : list drawing) : list drawing * res unit :=
  match ds with
  | [] => ([], Ok tt)
  | d :: ds' =>
      match addRefiningPoints o lm T d with
      | (d', Ok _) => let '(l, r) := refine_all ds' in (d' :: l, r)
      | (d', r) => (d' :: ds', r)
      end
  end.
Definition py_generate_system (args : list py) : method (dsystem o * list (list tri) * list vec) := fun s =>
  if Nat.ltb 3 (length args) then (s, Throw "TypeError")
  else
    pass (optional args) (fun f s =>
      let '(refine, area, angle) := f in
      pass (to_int angle) (fun deg s =>
        let '(ds, r) := if refine : bool then refine_all (s_draw s) else (s_draw s, Ok tt) in
        let s1 := mkSim ds (s_depths s) (s_mesh s) (s_links s) in
        pass (uncaught r) (fun _ s1 =>
          pass (uncaught (draw_links o T lm (s_links s) ds)) (fun ds s1 =>
            let s2 := mkSim ds (s_depths s) (s_mesh s) (s_links s) in
            match triangulate area deg ds with
            | None => (s2, UB "the Triangle library ends the process")
            | Some ms =>
                let s3 := mkSim ds (s_depths s) (Some ms) (s_links s) in
                (s3, M <- uncaught (ml_system o T (fun x => x) below_inf ms (s_links s)) ;;
                     vs <- py_vertices ms ;;
                     Ok (M, py_triangles ms, vs))
            end) s1) s1) s) s.

(** 188-261: solve; 206-223: the voltages.  A list entry that is not set stays NULL. *)
Definition voltage_rows (V : list T) (ms : list mesh) : res (list (option (nat * vec * T))) :=
  forM_list (combine (seq 0 (length ms)) (combine (node_offsets ms) ms))
    (fun kom l => let '(k, (off, m)) := kom in
       forM_up (length (m_points m)) (fun j l =>
         p <- get (m_points m) j ;; v <- get V (j + off) ;; set l (j + off) (Some (k, p, v))) l)
    (repeat None (length V)).
(** 238-256: layer number and global node numbers *)
Definition solve_triangles (ms : list mesh) : list (nat * tri) :=
  flat_map (fun kom => map (fun t => (fst kom, global_tri (fst (snd kom)) t)) (m_tris (snd (snd kom))))
    (combine (seq 0 (length ms)) (combine (node_offsets ms) ms)).
(** 228-233: (i, P[i]) *)
Definition power_rows (P : list T) : list (nat * T) := combine (seq 0 (length P)) P.
Definition py_solve (args : list py) (s : sim) : res (list (option (nat * vec * T)) * list (nat * tri) * list (nat * T)) :=
  match args with
  | [PySystem y] =>
      match y, s_mesh s with
      | Some M, Some ms =>
          V <- uncaught (ml_solve o M) ;;
          P <- uncaught (computePowerDensity o T (fun x => x) ms V) ;;
          vs <- voltage_rows V ms ;;
          Ok (vs, solve_triangles ms, power_rows P)
      | _, _ => UB "null or uninitialised"
      end
  | _ => Throw "TypeError"
  end.
End Bind.

Arguments PyFloat {o}.
Arguments PyInt {o}.
Arguments PyBool {o}.
Arguments PyList {o}.
Arguments PySystem {o}.
Arguments PyOther {o}.
Arguments mkSim {o}.
Arguments s_draw {o}.
Arguments s_depths {o}.
Arguments s_mesh {o}.
Arguments s_links {o}.
