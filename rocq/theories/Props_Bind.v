(** Properties C77 (wrong calls from Python), C78 (what an accepted call does) and C79 (the returned lists).
    Vocabulary in BindSpec.v, model in BindModel.v. *)
From Coq Require Import String.
From Coq Require Import List Arith ZArith NArith Bool Lia Reals Lra.
From Coq Require Import Floats.SpecFloat.
From Verif Require Import Base SumR AlgebraModel AlgebraSpec SolversModel SolversSpec GeometryModel GeometrySpec DrawingModel DrawingSpec MeshModel MeshSpec
  LayersModel LayersSpec Props_Geometry Props_Drawing Props_Mesh Props_Layers BindModel BindSpec Bind_proofs BindOut_proofs.
Import ListNotations.
Local Open Scope nat_scope.

(** *** a concrete session *)
Definition fnum (z : Z) : py FOps := @PyFloat FOps (f64_ofZ z).
Definition fpt (x y : Z) : py FOps := PyList [fnum x; PyInt y].
Definition fsim : sim FOps := match py_new FOps [PyInt 2; PyList [fnum 1; PyInt 2]] with Ok s => s | _ => mkSim [] [] None [] end.
Definition fsim0 : sim FOps := fst (py_draw_polygon FOps flm [PyList [fpt 0 0; fpt 8 0; fpt 8 8]; PyBool false] fsim).
Definition fsim1 : sim FOps := fst (py_draw_rectangle FOps flm [fpt 0 0; fpt 4 4; PyInt 1] fsim0).
Definition fmesh : mesh FOps f64 :=
  mkMesh (vzero FOps) (zero FOps) (one FOps) (one FOps) [FP 0 0; FP 2 0; FP 2 2; FP 0 2] [true; true; true; true] [(0, 1, 2); (0, 2, 3)] [0; 1]
    (mkD [f64_ofZ 3; f64_ofZ 5] [] [] [] []).
Definition fsim2 : sim FOps := mkSim (s_draw fsim1) (s_depths fsim1) (Some [fmesh]) [].
Definition fbelow (x : f64) : bool := SFltb x (S754_infinity false).
Definition fsystem : option (dsystem FOps) :=
  match ml_system FOps f64 (fun x => x) fbelow [fmesh] [] with Ok M => Some M | _ => None end.
Definition fvolts (l : list (Z * Z * Z * Z)) (M : option (dsystem FOps)) : option (dsystem FOps) :=
  fold_left (fun M c => let '(x, y, v, k) := c in
    match py_set_voltage FOps fbelow [PySystem M; fpt x y; PyInt v; PyInt k] fsim2 with Ok M => Some M | _ => None end) l M.
Definition fready : option (dsystem FOps) := fvolts [(0, 0, 0, 0); (2, 2, 1, 0)]%Z fsystem.
Definition ok {X} (r : res X) : bool := match r with Ok _ => true | _ => false end.
Definition ub {X} (r : res X) : bool := match r with UB _ => true | _ => false end.
Lemma ub_is : forall X (r : res X), ub r = true -> is_ub r.
Proof. intros X [| | |] H; try discriminate. eexists. reflexivity. Qed.
Lemma ok_is : forall X (r : res X), ok r = true -> is_ok r.
Proof. intros X [| | |] H; try discriminate. eexists. reflexivity. Qed.

Lemma fpt_coords : forall x y, coords [fnum x; PyInt y] (FP x y).
Proof. intros x y. exists (fnum x), (PyInt y), []. split; [reflexivity|]. split; [exact (@n_float FOps (f64_ofZ x))|exact (@n_int FOps y)]. Qed.

(** ** C77: a call with wrong arguments raises a Python exception, changes nothing and does not end the interpreter *)
Theorem C77_rectangle_types : forall (o : Ops) (lm : libm o) args (s : sim o), ~ rectangle_args args -> py_draw_rectangle o lm args s = (s, Throw "TypeError").
Proof. exact rect_untyped. Qed.
Print Assumptions C77_rectangle_types.
Theorem C77_region_types : forall (o : Ops) (lm : libm o) args (s : sim o), ~ region_args args -> py_draw_region o lm args s = (s, Throw "TypeError").
Proof. exact region_untyped. Qed.
Print Assumptions C77_region_types.
Theorem C77_polygon_types : forall (o : Ops) (lm : libm o) args (s : sim o), ~ polygon_args args -> py_draw_polygon o lm args s = (s, Throw "TypeError").
Proof. exact polygon_untyped. Qed.
Print Assumptions C77_polygon_types.
Theorem C77_link_types : forall (o : Ops) args (s : sim o), ~ link_args args -> py_add_interconnection o args s = (s, Throw "TypeError").
Proof. exact link_untyped. Qed.
Print Assumptions C77_link_types.
Theorem C77_voltage_types : forall (o : Ops) (bi : T o -> bool) args (s : sim o), ~ voltage_args args -> py_set_voltage o bi args s = Throw "TypeError".
Proof. exact voltage_untyped. Qed.
Print Assumptions C77_voltage_types.
(** the constructor either works or raises *)
Theorem C77_new : forall (o : Ops) args, is_ok (py_new o args) \/ is_throw (py_new o args).
Proof. exact new_safe. Qed.
Print Assumptions C77_new.
(** an exception raised by a drawing call is a TypeError, and the simulation is as before *)
Theorem C77_unchanged : forall (o : Ops) (lm : libm o) args (s s' : sim o) e,
  (py_draw_rectangle o lm args s = (s', Throw e) -> s' = s /\ e = "TypeError"%string) /\
  (py_draw_region o lm args s = (s', Throw e) -> s' = s /\ e = "TypeError"%string) /\
  (py_draw_polygon o lm args s = (s', Throw e) -> s' = s /\ e = "TypeError"%string).
Proof. intros o lm args s s' e. split; [apply rect_throw|]. split; [apply region_throw|apply polygon_throw]. Qed.
Print Assumptions C77_unchanged.
(** exactly when the interpreter is lost: a coordinate list that is too short, a layer that does not exist, or a C++ call that
    throws (crossing outlines) *)
Theorem C77_rectangle_crash : forall (o : Ops) (lm : libm o) args (s : sim o), holds_layers s ->
  (is_ub (snd (py_draw_rectangle o lm args s)) <->
   exists la lb x z, args = [PyList la; PyList lb; x] /\ integer x z /\
     (short la \/ (exists p, coords la p) /\ short lb \/ exists p q, coords la p /\ coords lb q /\ breaks lm z (DrawRectangle p q) s)).
Proof. exact rect_ub. Qed.
Print Assumptions C77_rectangle_crash.
Theorem C77_region_crash : forall (o : Ops) (lm : libm o) args (s : sim o), holds_layers s ->
  (is_ub (snd (py_draw_region o lm args s)) <->
   exists la v x z, args = [PyList la; PyFloat v; x] /\ integer x z /\ (short la \/ exists p, coords la p /\ breaks lm z (DrawRegion p v) s)).
Proof. exact region_ub. Qed.
Print Assumptions C77_region_crash.
Theorem C77_polygon_crash : forall (o : Ops) (lm : libm o) args (s : sim o), holds_layers s ->
  (is_ub (snd (py_draw_polygon o lm args s)) <->
   exists l x ps z, args = [PyList l; x] /\ integer x z /\ Forall2 vertex l ps /\ breaks lm z (DrawPolygon ps) s).
Proof. exact polygon_ub. Qed.
Print Assumptions C77_polygon_crash.
Theorem C77_link_crash : forall (o : Ops) args (s : sim o),
  (is_ub (snd (py_add_interconnection o args s)) <->
   exists la lb x y u, args = [PyList la; PyList lb; x; y; u] /\ link_args args /\ (short la \/ (exists p, coords la p) /\ short lb)).
Proof. exact link_ub. Qed.
Print Assumptions C77_link_crash.
(** nikfemm.System() has no system behind it; the layer is not checked *)
Theorem C77_voltage_crash : forall (o : Ops) (bi : T o -> bool) la p u v x z (s : sim o), coords la p -> number u v -> integer x z ->
  is_ub (py_set_voltage o bi [PySystem None; PyList la; u; x] s) /\
  forall M ms, s_mesh s = Some ms -> (Z.of_nat (length ms) < 2 ^ 64)%Z -> ~ (0 <= z < Z.of_nat (length ms))%Z -> is_ub (py_set_voltage o bi [PySystem M; PyList la; u; x] s).
Proof.
  intros o bi la p u v x z s H Hu Hx. split; [exact (voltage_null o bi la p u v x z s H Hu Hx)|].
  intros M ms Hm Hl Hz. exact (voltage_layer o bi M la p u v x z s ms H Hu Hx Hm Hl Hz).
Qed.
Print Assumptions C77_voltage_crash.
Theorem C77_solve_crash : forall (o : Ops) (s : sim o) M, is_ub (py_solve o [PySystem None] s) /\ (s_mesh s = None -> is_ub (py_solve o [PySystem M] s)).
Proof. intros o s M. split; [eexists; reflexivity|]. intros H. unfold py_solve. rewrite H. destruct M; eexists; reflexivity. Qed.
Print Assumptions C77_solve_crash.
(** solve and generate_system raise for wrong arguments only and then change nothing ([ti]: the conversion of the angle to int) *)
Theorem C77_solve_raises : forall (o : Ops) args (s : sim o) e, py_solve o args s = Throw e <-> e = "TypeError"%string /\ forall y, args <> [PySystem y].
Proof. exact solve_raises. Qed.
Print Assumptions C77_solve_raises.
Theorem C77_generate_raises : forall (o : Ops) (lm : libm o) (bi : T o -> bool) tr ti args (s s' : sim o) e,
  py_generate_system o lm bi tr ti args s = (s', Throw e) ->
  s' = s /\ (e = "TypeError"%string /\ (forall f, ~ options args f) \/ exists refine area angle, options args (refine, area, angle) /\ ti angle = Throw e).
Proof. exact generate_raises. Qed.
Print Assumptions C77_generate_raises.
(** a rejected interconnection leaves the simulation as it is, except that a layer number outside 64 bits is stored before
    the exception *)
Theorem C77_link_unchanged : forall (o : Ops) args (s s' : sim o) e, py_add_interconnection o args s = (s', Throw e) ->
  s' = s /\ e = "TypeError"%string \/
  e = "SystemError"%string /\ s' <> s /\
  exists a b x y u z w, args = [a; b; x; y; u] /\ integer x z /\ integer y w /\ ~ ((0 <= z < 2 ^ 64)%Z /\ (0 <= w < 2 ^ 64)%Z).
Proof. exact link_throw. Qed.
Print Assumptions C77_link_unchanged.
Theorem C77_link_stored : forall (o : Ops) la lb x y u p q z w r (s : sim o), coords la p -> coords lb q -> integer x z -> integer y w -> number u r ->
  ~ ((0 <= z < 2 ^ 64)%Z /\ (0 <= w < 2 ^ 64)%Z) ->
  exists s', py_add_interconnection o [PyList la; PyList lb; x; y; u] s = (s', Throw "SystemError") /\ length (s_links s') = S (length (s_links s)).
Proof. exact link_stored. Qed.
Print Assumptions C77_link_stored.
(** the layers of an interconnection are looked at by generate_system only, which then never returns a system *)
Theorem C77_link_layers : forall (o : Ops) (lm : libm o) (bi : T o -> bool) tr ti args (s s' : sim o) r,
  py_generate_system o lm bi tr ti args s = (s', Ok r) ->
  Forall (fun k => k_layer1 k < length (s_draw s) /\ k_layer2 k < length (s_draw s)) (s_links s).
Proof. exact generate_layers. Qed.
Print Assumptions C77_link_layers.
Theorem C77_generate_types : forall (o : Ops) (lm : libm o) (bi : T o -> bool) tr ti args (s : sim o), (forall f, ~ options args f) ->
  py_generate_system o lm bi tr ti args s = (s, Throw "TypeError").
Proof. exact generate_types. Qed.
Print Assumptions C77_generate_types.
(** a list of one coordinate, a layer that does not exist and a rectangle across another each end the interpreter; a negative
    layer raises but changes the simulation *)
Theorem C77_refuted : exists s : sim FOps, holds_layers s /\
  is_ub (snd (py_draw_rectangle FOps flm [PyList [fnum 1]; fpt 4 4; PyInt 0] s)) /\
  is_ub (snd (py_draw_rectangle FOps flm [fpt 0 0; fpt 4 4; PyInt 2] s)) /\
  is_ub (snd (py_draw_rectangle FOps flm [fpt 0 0; fpt 4 4; PyInt (-1)] s)) /\
  is_ub (snd (py_draw_rectangle FOps flm [fpt 3 1; fpt 5 6; PyInt 0] s)) /\
  exists s' e, py_add_interconnection FOps [fpt 1 1; fpt 1 1; PyInt (-1); PyInt 0; PyInt 3] s = (s', Throw e) /\ s' <> s.
Proof.
  exists fsim1. assert (L : length (s_draw fsim1) = 2) by (vm_compute; reflexivity).
  assert (H : holds_layers fsim1) by (unfold holds_layers; rewrite L; reflexivity). split; [exact H|].
  split; [apply ub_is; vm_compute; reflexivity|]. split; [apply ub_is; vm_compute; reflexivity|].
  split.
  { apply rect_ub; [exact H|]. do 4 eexists. split; [reflexivity|]. split; [constructor|]. right. right. exists (FP 0 0), (FP 4 4).
    split; [apply fpt_coords|]. split; [apply fpt_coords|]. left. intros n C. lia. }
  split; [apply ub_is; vm_compute; reflexivity|].
  destruct (link_stored FOps _ _ (PyInt (-1)) (PyInt 0) (PyInt 3) _ _ (-1) 0 (f64_ofZ 3) fsim1 (fpt_coords 1 1) (fpt_coords 1 1) (i_int _) (i_int _) (@n_int FOps 3)) as (s' & E & N); [lia|].
  exists s', "SystemError"%string. split; [exact E|]. intros C. rewrite C in N. lia.
Qed.
Print Assumptions C77_refuted.
Example C77_example : holds_layers fsim1 /\ ~ rectangle_args [fpt 0 0; PyOther; PyInt 1 : py FOps] /\ short [fnum 1] /\
  coords (items FOps (fpt 2 3)) (FP 2 3) /\ integer (PyInt 1 : py FOps) 1 /\ ok (py_new FOps [PyInt 2; PyList [fnum 1; PyInt 2]]) = true.
Proof.
  assert (L : length (s_draw fsim1) = 2) by (vm_compute; reflexivity).
  split; [unfold holds_layers; rewrite L; reflexivity|]. split; [intros (?&?&?&?&C&_); discriminate|]. split; [right; exists (fnum 1), (f64_ofZ 1); split; [reflexivity|exact (@n_float FOps (f64_ofZ 1))]|].
  split; [apply fpt_coords|]. split; [constructor|vm_compute; reflexivity].
Qed.

(** ** C78: an accepted call does what the C++ call does with the numbers given; ints and floats are both taken *)
Theorem C78_new : forall (o : Ops) args s,
  py_new o args = Ok s <->
  exists x z l ds, args = [x; PyList l] /\ integer x z /\ (z mod 2 ^ 32)%Z = Z.of_nat (length l) /\ Forall2 number l ds /\
    s = mkSim (map (fun _ => empty_drawing o (T o)) l) ds None [].
Proof. exact new_ok. Qed.
Print Assumptions C78_new.
Theorem C78_layers : forall (o : Ops) args (s : sim o), py_new o args = Ok s -> holds_layers s.
Proof. exact new_holds. Qed.
Print Assumptions C78_layers.
Theorem C78_rectangle : forall (o : Ops) (lm : libm o) args (s s' : sim o), holds_layers s ->
  (py_draw_rectangle o lm args s = (s', Ok tt) <->
   exists la lb x p q n, args = [PyList la; PyList lb; x] /\ coords la p /\ coords lb q /\ integer x (Z.of_nat n) /\ drawn lm n (DrawRectangle p q) s s' (Ok tt)).
Proof. exact rect_ok. Qed.
Print Assumptions C78_rectangle.
(** the conductivity must be a float *)
Theorem C78_region : forall (o : Ops) (lm : libm o) args (s s' : sim o), holds_layers s ->
  (py_draw_region o lm args s = (s', Ok tt) <->
   exists la v x p n, args = [PyList la; PyFloat v; x] /\ coords la p /\ integer x (Z.of_nat n) /\ drawn lm n (DrawRegion p v) s s' (Ok tt)).
Proof. exact region_ok. Qed.
Print Assumptions C78_region.
Theorem C78_polygon : forall (o : Ops) (lm : libm o) args (s s' : sim o), holds_layers s ->
  (py_draw_polygon o lm args s = (s', Ok tt) <->
   exists l x ps n, args = [PyList l; x] /\ Forall2 vertex l ps /\ integer x (Z.of_nat n) /\ drawn lm n (DrawPolygon ps) s s' (Ok tt)).
Proof. exact polygon_ok. Qed.
Print Assumptions C78_polygon.
Theorem C78_link : forall (o : Ops) args (s s' : sim o),
  (py_add_interconnection o args s = (s', Ok tt) <->
   exists la lb x y u p q k l r, args = [PyList la; PyList lb; x; y; u] /\ coords la p /\ coords lb q /\
     integer x (Z.of_nat k) /\ (Z.of_nat k < 2 ^ 64)%Z /\ integer y (Z.of_nat l) /\ (Z.of_nat l < 2 ^ 64)%Z /\ number u r /\
     s' = mkSim (s_draw s) (s_depths s) (s_mesh s) (s_links s ++ [mkLink p q k l r])).
Proof. exact link_ok. Qed.
Print Assumptions C78_link.
Theorem C78_voltage : forall (o : Ops) (bi : T o -> bool) args (s : sim o) ms M', s_mesh s = Some ms -> (Z.of_nat (length ms) < 2 ^ 64)%Z ->
  (py_set_voltage o bi args s = Ok M' <->
   exists M la u x p v n, args = [PySystem (Some M); PyList la; u; x] /\ coords la p /\ number u v /\ integer x (Z.of_nat n) /\
     ml_setVoltage o (T o) bi ms M p v n = Ok M').
Proof. exact voltage_ok. Qed.
Print Assumptions C78_voltage.
(** generate_system: refinement if asked for, the points of the interconnections, the mesher with the area and the angle in
    whole degrees, and the system of the meshes it made *)
Theorem C78_generate : forall (o : Ops) (lm : libm o) (bi : T o -> bool) tr ti args (s s' : sim o) M ts vs,
  py_generate_system o lm bi tr ti args s = (s', Ok (M, ts, vs)) <->
  exists refine area angle deg ds0 ds ms, options args (refine, area, angle) /\ ti angle = Ok deg /\ refined lm refine (s_draw s) ds0 /\
    draw_links o (T o) lm (s_links s) ds0 = Ok ds /\ tr area deg ds = Some ms /\
    ml_system o (T o) (fun x => x) bi ms (s_links s) = Ok M /\ py_vertices o ms = Ok vs /\ ts = py_triangles o ms /\
    s' = mkSim ds (s_depths s) (Some ms) (s_links s).
Proof. exact generate_ok. Qed.
Print Assumptions C78_generate.
Example C78_generate_example :
  let tr := fun (area : T FOps) (deg : Z) ds => if Z.eqb deg 20 && eqb FOps area (ofZ FOps 2) && Nat.eqb (length ds) 2 then Some (@nil (mesh FOps (T FOps))) else None in
  let ti := fun x : T FOps => if eqb FOps x (ofZ FOps 20) then Ok 20%Z else Throw "other" in
  ok (snd (py_generate_system FOps flm (fun _ => true) tr ti [PyBool false; PyInt 2; PyInt 20] fsim1)) = true /\
  ok (snd (py_generate_system FOps flm (fun _ => true) tr ti [PyBool false; PyInt 3; PyInt 20] fsim1)) = false /\
  ok (snd (py_generate_system FOps flm (fun _ => true) tr ti [PyInt 0; PyInt 2; PyInt 20] fsim1)) = false.
Proof. vm_compute. auto. Qed.
(** the same region is accepted with 3.0 and rejected with 3 *)
Theorem C78_ints_refuted : exists s : sim FOps, is_ok (snd (py_draw_region FOps flm [fpt 1 1; fnum 3; PyInt 1] s)) /\
  snd (py_draw_region FOps flm [fpt 1 1; PyInt 3; PyInt 1] s) = Throw "TypeError".
Proof. exists fsim1. split; [apply ok_is; vm_compute; reflexivity|reflexivity]. Qed.
Print Assumptions C78_ints_refuted.
Example C78_example : ok (snd (py_draw_rectangle FOps flm [fpt 0 0; fpt 4 4; PyInt 1] fsim)) = true /\
  ok (snd (py_draw_polygon FOps flm [PyList [fpt 0 0; fpt 4 0; fpt 4 4]; PyBool false] fsim)) = true /\
  ok (snd (py_add_interconnection FOps [fpt 1 1; fpt 1 1; PyInt 0; PyInt 1; PyInt 3] fsim)) = true /\
  map (fun d => length (points d)) (s_draw fsim1) = [3; 4].
Proof. vm_compute. auto. Qed.

(** ** C79: the returned lists fit together *)
(** the vertices are those of the layers one after the other, and a triangle of layer k names its own corners there *)
Theorem C79_vertices : forall (o : Ops) (ms : list (mesh o (T o))), py_vertices o ms = Ok (concat (map m_points ms)).
Proof. exact vertices_all. Qed.
Print Assumptions C79_vertices.
Theorem C79_triangles : forall (o : Ops) (ms : list (mesh o (T o))) k m j t, nth_error ms k = Some m -> nth_error (m_tris m) j = Some t ->
  length (py_triangles o ms) = length ms /\
  exists row a b c, nth_error (py_triangles o ms) k = Some row /\ length row = length (m_tris m) /\ nth_error row j = Some (a, b, c) /\
    (t0 t < length (m_points m) -> nth_error (concat (map m_points ms)) a = nth_error (m_points m) (t0 t)) /\
    (t1 t < length (m_points m) -> nth_error (concat (map m_points ms)) b = nth_error (m_points m) (t1 t)) /\
    (t2 t < length (m_points m) -> nth_error (concat (map m_points ms)) c = nth_error (m_points m) (t2 t)).
Proof.
  intros o ms k m j t Hk Hj. split; [apply triangles_len|]. destruct (triangles_nth o ms k m j t Hk Hj) as (row & R & L & N). exists row. do 3 eexists. split; [exact R|]. split; [exact L|]. split; [exact N|].
  repeat split; intros H; exact (concat_row o _ m_points ms k m _ Hk H).
Qed.
Print Assumptions C79_triangles.
(** solve: one row per unknown; the row of node i of layer k holds the layer, the position and the voltage of that node, and a
    triangle row holds its layer and the rows of its corners.  Rows stay unset exactly when the system has more unknowns
    than the meshes have nodes. *)
Theorem C79_solve : forall (o : Ops) M (s : sim o) ms vs ts ps, s_mesh s = Some ms -> py_solve o [PySystem (Some M)] s = Ok (vs, ts, ps) ->
  exists V, ml_solve o M = Ok V /\ length V = length (sb _ M) /\ length vs = length V /\
    (forall k m i p, nth_error ms k = Some m -> nth_error (m_points m) i = Some p ->
      exists v, nth_error V (row_of ms k i) = Some v /\ nth_error vs (row_of ms k i) = Some (Some (k, p, v))) /\
    (In None vs <-> list_sum (map (fun m => length (m_points m)) ms) < length V) /\
    length ts = list_sum (map (fun m => length (m_tris m)) ms) /\ length ps = length ts /\
    (forall k m j t, nth_error ms k = Some m -> nth_error (m_tris m) j = Some t ->
      nth_error ts (list_sum (map (fun m => length (m_tris m)) (firstn k ms)) + j) = Some (k, (row_of ms k (t0 t), row_of ms k (t1 t), row_of ms k (t2 t)))).
Proof.
  intros o M s ms vs ts ps Hm H. destruct (solve_ok o M s ms vs ts ps Hm H) as (V & P & S & C & R & -> & ->). destruct (powers_len o ms V P C) as [LP LV].
  destruct (rows_ok o V ms LV) as (rows & R' & L & N & I). rewrite R in R'. injection R' as R'. subst rows. exists V. split; [exact S|]. split; [apply ml_solve_len, S|]. split; [exact L|]. split; [exact N|]. split; [exact I|].
  split; [apply solve_triangles_len|]. split; [unfold power_rows; rewrite combine_length, seq_length, solve_triangles_len, LP; lia|]. intros k m j t. apply solve_triangles_nth.
Qed.
Print Assumptions C79_solve.
(** the first entry of a power row is the number of the triangle, not of the layer *)
Theorem C79_power : forall (o : Ops) M (s : sim o) ms vs ts ps, s_mesh s = Some ms -> py_solve o [PySystem (Some M)] s = Ok (vs, ts, ps) ->
  exists V P, ml_solve o M = Ok V /\ computePowerDensity o (T o) (fun x => x) ms V = Ok P /\
    forall j x, nth_error ps j = Some x <-> exists w, nth_error P j = Some w /\ x = (j, w).
Proof.
  intros o M s ms vs ts ps Hm H. destruct (solve_ok o M s ms vs ts ps Hm H) as (V & P & S & C & R & -> & ->). exists V, P. split; [exact S|]. split; [exact C|]. intros j x. apply power_rows_nth.
Qed.
Print Assumptions C79_power.
Definition power_layers (M : option (dsystem FOps)) : list nat * list nat :=
  match py_solve FOps [PySystem M] fsim2 with Ok (_, ts, ps) => (map fst ts, map fst ps) | _ => ([], []) end.
Lemma fpower : power_layers fready = ([0; 0], [0; 1]).
Proof. vm_compute. reflexivity. Qed.
Theorem C79_power_refuted : exists (s : sim FOps) M vs ts ps j a b, py_solve FOps [PySystem (Some M)] s = Ok (vs, ts, ps) /\
  nth_error (map fst ts) j = Some a /\ nth_error (map fst ps) j = Some b /\ a <> b.
Proof.
  pose proof fpower as H. unfold power_layers in H. destruct fready as [M|]; [|discriminate].
  destruct (py_solve FOps [PySystem (Some M)] fsim2) as [[[vs ts] ps]| | |] eqn:E; try discriminate. injection H as H1 H2.
  exists fsim2, M, vs, ts, ps, 1, 0, 1. split; [exact E|]. split; [exact (f_equal (fun l => nth_error l 1) H1)|]. split; [exact (f_equal (fun l => nth_error l 1) H2)|discriminate].
Qed.
Print Assumptions C79_power_refuted.
(** in exact arithmetic: voltages set from Python on the system of well-formed layers, then solve, give one row per node *)
Lemma py_voltages_ml : forall (s : sim ROps) ms cs l M M', s_mesh s = Some ms -> (Z.of_nat (length ms) < 2 ^ 64)%Z -> Forall2 voltage_call cs l ->
  ml_voltages ms M l = Ok M' -> py_voltages finite_R s M cs = Ok M'.
Proof.
  intros s ms cs l M M' Hm Hl F. revert M. induction F as [|c [[p v] k] cs l (la & u & x & -> & H1 & H2 & H3) F IH]; intros M H; [exact H|].
  cbn [py_voltages ml_voltages fst snd] in *. apply bind_ok in H. destruct H as (M1 & S & H).
  match goal with |- bind ?X _ = _ => assert (E : X = Ok M1) end.
  { apply (voltage_ok ROps finite_R _ s ms M1 Hm Hl). exists M, la, u, x, p, v, k. auto. }
  rewrite E. cbn [bind]. apply IH, H.
Qed.
Theorem C79_session : forall (s : sim ROps) (ms : list (mesh ROps R)) pss links es cs (l : list (pt * R * nat)),
  s_mesh s = Some ms -> (Z.of_nat (length ms) < 2 ^ 64)%Z -> ready_layers ms pss -> wired ms links es -> across links -> distinct es ->
  Forall (fun k : link ROps => 0 < k_R k)%R links -> (forall ps p, In ps pss -> In p ps -> 0 < p)%R -> Forall (fun m : mesh ROps R => 0 < m_depth m)%R ms ->
  Forall (fun c : pt * R * nat => exists m, nth_error ms (snd c) = Some m /\ m_points m <> []) l -> Forall2 voltage_call cs l ->
  exists M us M', ml_system ROps R (fun x => x) finite_R ms links = Ok M /\ Forall2 (fun c u => addresses ms (fst (fst c)) (snd c) u) l us /\
    py_voltages finite_R s M cs = Ok M' /\
    ((forall v, v < nodes ms -> exists u, In u us /\ wired_to ms es u v) -> fits (sA R M') -> nodes ms <> 0 -> (N.of_nat (nodes ms) <= 100000)%N ->
     exists vs ts ps, py_solve ROps [@PySystem ROps (Some M')] s = Ok (vs, ts, ps) /\ length vs = nodes ms /\ ~ In None vs).
Proof.
  intros s ms pss links es cs l Hm Hl Hr Hw Ha Hd HR Hs Hdp Hv Hc.
  destruct (C67_layers R ms pss (fun x => x) links es l Hr Hw Ha Hd HR Hs Hdp Hv) as (M & us & M' & S & A & V & D & K).
  exists M, us, M'. split; [exact S|]. split; [exact A|]. split; [exact (py_voltages_ml s ms cs l M M' Hm Hl Hc V)|]. intros H1 H2 H3 H4.
  destruct (K H1) as (_ & _ & K'). destruct (K' H2 H3 H4) as (x & X & _).
  assert (LX : length x = nodes ms).
  { rewrite <- D. exact (ml_solve_len ROps M' x X). }
  destruct (C46_power R (fun x => x) ms pss x (proj1 Hr) (Nat.eq_le_incl _ _ (eq_sym LX))) as (Pw & PW & _).
  destruct (rows_ok ROps x ms (Nat.eq_le_incl _ _ (eq_sym LX))) as (rows & RW & LR & _ & I).
  exists rows, (solve_triangles ROps ms), (power_rows ROps Pw). split.
  - unfold py_solve. rewrite Hm. cbn [T ROps] in *. rewrite X. cbn [uncaught bind]. change (T ROps) with R. rewrite PW. cbn [uncaught bind]. rewrite RW. reflexivity.
  - split; [exact (eq_trans LR LX)|]. intros C. apply I in C. unfold nodes in LX. change (T ROps) with R in *. rewrite LX in C. exact (Nat.lt_irrefl _ C).
Qed.
Print Assumptions C79_session.
Example C79_example : ok (py_solve FOps [PySystem fready] fsim2) = true /\
  (let s := @mkSim ROps [] [] (Some [sqm; sqm]) [] in s_mesh s = Some [sqm; sqm] /\ (Z.of_nat (length [sqm; sqm]) < 2 ^ 64)%Z) /\
  Forall2 (@voltage_call ROps) [[PyList [PyInt 0; PyInt 0]; PyInt 1; PyInt 0]] [(P 0 0, IZR 1, 0%nat)] /\
  Forall (fun c : pt * R * nat => exists m, nth_error [sqm; sqm] (snd c) = Some m /\ m_points m <> []) [(P 0 0, IZR 1, 0%nat)].
Proof.
  split; [vm_compute; reflexivity|]. split; [split; [reflexivity|cbn; lia]|]. split.
  - constructor; [|constructor]. exists [PyInt 0; PyInt 0], (PyInt 1), (PyInt 0). split; [reflexivity|].
    split; [exists (PyInt 0), (PyInt 0), []; split; [reflexivity|split; exact (@n_int ROps 0)]|]. split; [exact (@n_int ROps 1)|apply i_int].
  - constructor; [|constructor]. exists sqm. split; [reflexivity|discriminate].
Qed.
