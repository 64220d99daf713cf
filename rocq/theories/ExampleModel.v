(** Model of three example programs: gradient_descent_design_optimization, magnet_dynamic_simulation and draw_motor of mtest.
    The calls that a program makes on its drawing are computed first (none depends on the drawing) and made in order.
    Meshing, solving and the force integral enter as a function of the calls made.  Simplified: the windows
    (ElemScalarPlot) and the printed text are left out, a material is a value of an abstract type, and a decimal literal is a quotient of integers. *)
From Coq Require Import String.
From Coq Require Import List Arith ZArith NArith Bool.
From Verif Require Import Base GeometryModel DrawingModel.
Import ListNotations.

Section Examples.
Variable o : Ops.
Variable lm : libm o.
Notation T := (T o).
Notation vec := (vec o).
Variable mat : Type.
(** magnetostatic/properties.hpp 37-46: current density, magnetisation, material *)
Definition prop : Type := T * vec * mat.
Notation call := (call o prop).
Notation "x '+.' y" := (add o x y) (at level 50, left associativity).
Notation "x '-.' y" := (sub o x y) (at level 50, left associativity).
Notation "x '*.' y" := (mul o x y) (at level 40, left associativity).
Definition frac (a b : Z) : res T := div o (ofZ o a) (ofZ o b).
Definition at0 : vec := mkV (zero o) (zero o).

(** ** examples/gradient_descent_design_optimization/main.cpp *)
Variables iron_linear copper : mat.
(** lines 14-28 *)
Definition design_calls (winding_thickness height iron_thickness : T) : res (list call) :=
  winding_radius <- div o (iron_thickness +. winding_thickness) (ofZ o 2) ;;
  iron_radius <- div o iron_thickness (ofZ o 2) ;;
  let total_current := ofZ o 1000 in
  let winding_area := winding_thickness *. height *. ofZ o 2 in
  current_density <- div o total_current winding_area ;;
  half <- frac 1 2 ;;
  h2 <- div o height (ofZ o 2) ;;
  w4 <- div o winding_thickness (ofZ o 4) ;;
  y <- frac (-3) 2 ;;
  Ok [ DrawRectangle (mkV iron_radius (zero o)) (mkV winding_radius height);
       DrawRectangle (mkV (opp o iron_radius) (zero o)) (mkV (opp o winding_radius) height);
       DrawRectangle (mkV iron_radius (zero o)) (mkV (opp o iron_radius) height);
       DrawRectangle (mkV (opp o half) (ofZ o (-1))) (mkV half (ofZ o (-2)));
       DrawRegion (mkV (zero o) h2) (zero o, at0, iron_linear);
       DrawRegion (mkV (iron_radius +. w4) h2) (current_density, at0, copper);
       DrawRegion (mkV (opp o iron_radius -. w4) h2) (opp o current_density, at0, copper);
       DrawRegion (mkV (zero o) y) (zero o, at0, iron_linear) ].

(** simulation.hpp 43: generateSystem (bool refine = true, double max_triangle_area = 1, int min_angle = 33, ..), called with one
    number: a double is converted to bool (false for 0), the other parameters keep their defaults.  What the mesher is given. *)
Definition generate1 (x : T) : bool * T * Z := (negb (eqb o x (zero o)), ofZ o 1, 33%Z).

(** lines 10-39: the result of the program's cost function, [measure] standing for generateSystem .. computeForceIntegrals (lines 30-34) *)
Variable measure : list call -> bool * T * Z -> res T.
Definition cost_function (w h i : T) : res T :=
  cs <- design_calls w h i ;;
  size <- frac 1 1000 ;;
  measure cs (generate1 size).
(** lines 50-69 for any cost function *)
Definition descend (cost : T -> T -> T -> res T) (s : T * T * T) : res (T * T * T) :=
  let '(w, h, i) := s in
  epsilon <- frac 3 10 ;;
  let step_size := ofZ o 1000 in
  base <- cost w h i ;;
  c1 <- cost (w +. epsilon) h i ;;
  c2 <- cost w (h +. epsilon) i ;;
  c3 <- cost w h (i +. epsilon) ;;
  d1 <- div o (c1 -. base) epsilon ;;
  d2 <- div o (c2 -. base) epsilon ;;
  d3 <- div o (c3 -. base) epsilon ;;
  Ok (w +. step_size *. d1, h, i +. step_size *. d3).
Fixpoint descent (n : nat) (cost : T -> T -> T -> res T) (s : T * T * T) : res (T * T * T) :=
  match n with
  | O => Ok s
  | S n' => s' <- descend cost s ;; descent n' cost s'
  end.

(** ** examples/magnet_dynamic_simulation/main.cpp *)
Variable neodymium : mat.
Record body := mkBody { b_centre : vec; b_angle : T; b_velocity : vec; b_spin : T }.
(** lines 23-30 *)
Definition square (half : T) : list vec :=
  [ mkV (opp o half) (opp o half); mkV half (opp o half); mkV half half; mkV (opp o half) half ].
(** lines 32, 33, 58, 59: square.copy ().translate (c).rotate (a, c) *)
Definition outline (half : T) (b : body) : list vec :=
  poly_rotate o (fsin o lm) (fcos o lm) (poly_translate o (square half) (b_centre b)) (b_angle b) (b_centre b).
(** lines 34, 35, 60, 61: Vector::rotate is const, so the magnetisation declared in line 19 is turned afresh every time *)
Definition magnetisation (b : body) : vec := rotate0 o (fsin o lm) (fcos o lm) (mkV (zero o) (ofZ o 1000)) (b_angle b).
(** lines 58-61 *)
Definition layout (half : T) (b1 b2 : body) : list call :=
  [ DrawPolygon (outline half b1); DrawPolygon (outline half b2);
    DrawRegion (b_centre b1) (zero o, magnetisation b1, neodymium);
    DrawRegion (b_centre b2) (zero o, magnetisation b2, neodymium) ].
(** lines 78-88 for one body: v += F * dt / m; w += T * dt / I; c += v * dt; angle += w * dt *)
Definition advance (dt mass inertia : T) (force : vec) (torque : T) (b : body) : res body :=
  dv <- vdivs o (vmul o force dt) mass ;;
  dw <- div o (torque *. dt) inertia ;;
  let v := vadd o (b_velocity b) dv in
  let w := b_spin b +. dw in
  Ok (mkBody (vadd o (b_centre b) (vmul o v dt)) (b_angle b +. w *. dt) v w).
(** lines 56-88; [stress] stands for generateSystem .. computeStressIntegral of a fresh simulation with this drawing *)
Variable stress : list call -> res ((vec * T) * (vec * T)).
Definition turn_of (half dt m1 m2 i1 i2 : T) (s : body * body) : res (body * body) :=
  let '(b1, b2) := s in
  '(s1, s2) <- stress (layout half b1 b2) ;;
  b1' <- advance dt m1 i1 (fst s1) (snd s1) b1 ;;
  b2' <- advance dt m2 i2 (fst s2) (snd s2) b2 ;;
  Ok (b1', b2').
(** line 55 *)
Fixpoint turns (n : nat) (half dt m1 m2 i1 i2 : T) (s : body * body) : res (body * body) :=
  match n with
  | O => Ok s
  | S n' => s' <- turn_of half dt m1 m2 i1 i2 s ;; turns n' half dt m1 m2 i1 i2 s'
  end.

(** ** examples/mtest/main.cpp *)
Variable air : mat.
(** lines 100-102 *)
Definition polar (r theta : T) : vec := mkV (r *. fcos o lm theta) (r *. fsin o lm theta).
(** lines 104-123: the parameters of draw_motor, the two numbers of poles apart *)
Record motor := mkMotor {
  angle : T; stator_outer_pole_radius : T; stator_inner_pole_radius : T; stator_outer_radius : T; stator_inner_radius : T;
  cap_unfilled : T; stem_percent : T; rotor_outer_radius : T; rotor_inner_radius : T; magnet_thickness : T; magnet_fill : T;
  winding_fill : T; winding_of_stem : T; currentA : T; currentB : T; currentC : T; magnet_magnetization : T }.
(** lines 152-166: int winding_id = (i / 2) % 3; the current of pole i, i >= 0 *)
Definition coil_current (k : motor) (i : nat) : T :=
  let current := match (i / 2) mod 3 with 0 => currentA k | 1 => currentB k | _ => currentC k end in
  if Nat.eqb ((i / 2) mod 2) 0 then current else current *. ofZ o (-1).
(** lines 126-135 *)
Definition angle_step (poles : nat) : res T := div o (ofZ o 2 *. fpi o lm) (ofZ o (Z.of_nat poles)).
Definition stem_half (k : motor) (step : T) : res T := div o (step *. stem_percent k) (ofZ o 2).
Definition cap_half (k : motor) (step : T) : res T := div o (step *. (ofZ o 1 -. cap_unfilled k)) (ofZ o 2).
Definition stem_height (k : motor) : T := stator_inner_pole_radius k -. stator_outer_radius k.
Definition core_gap (k : motor) : T := stem_height k -. stem_height k *. winding_of_stem k.
Definition winding_start (k : motor) : T := stator_outer_radius k +. core_gap k.
Definition winding_end (k : motor) : T := stator_inner_pole_radius k -. core_gap k.
(** lines 138-150: the vertices that pole i adds to the stator *)
Definition pole_vertices (k : motor) (step stem cap : T) (i : nat) : list vec :=
  let c := step *. ofZ o (Z.of_nat i) in
  [ polar (stator_outer_radius k) (c -. stem); polar (winding_start k) (c -. stem); polar (winding_end k) (c -. stem);
    polar (stator_inner_pole_radius k) (c -. stem); polar (stator_inner_pole_radius k) (c -. cap); polar (stator_outer_pole_radius k) (c -. cap);
    polar (stator_outer_pole_radius k) (c +. cap); polar (stator_inner_pole_radius k) (c +. cap); polar (stator_inner_pole_radius k) (c +. stem);
    polar (winding_end k) (c +. stem); polar (winding_start k) (c +. stem); polar (stator_outer_radius k) (c +. stem) ].
(** lines 169-194: the two coil sides of pole i *)
Definition coil_calls (k : motor) (step stem : T) (i : nat) : res (list call) :=
  let c := step *. ofZ o (Z.of_nat i) in
  let w := step *. winding_fill k in
  let current := coil_current k i in
  middle <- div o (winding_end k -. winding_start k) (ofZ o 2) ;;
  w2 <- div o w (ofZ o 2) ;;
  Ok [ DrawPolygon [ polar (winding_start k) (c -. stem); polar (winding_start k) (c -. stem -. w); polar (winding_end k) (c -. stem -. w); polar (winding_end k) (c -. stem) ];
       DrawRegion (polar (middle +. winding_start k) (c -. stem -. w2)) (opp o current, at0, air);
       DrawPolygon [ polar (winding_start k) (c +. stem); polar (winding_start k) (c +. stem +. w); polar (winding_end k) (c +. stem +. w); polar (winding_end k) (c +. stem) ];
       DrawRegion (polar (middle +. winding_start k) (c +. stem +. w2)) (current, at0, air) ].
(** lines 227-242: magnet i *)
Definition magnet_side (k : motor) (step half : T) (i : nat) (out : bool) : vec :=
  let c := step *. ofZ o (Z.of_nat i) +. angle k in
  polar (rotor_inner_radius k) (if out then c +. half else c -. half).
Definition magnet_calls (k : motor) (step half : T) (i : nat) : res (list call) :=
  let c := step *. ofZ o (Z.of_nat i) +. angle k in
  let inner := rotor_inner_radius k -. magnet_thickness k in
  t2 <- div o (magnet_thickness k) (ofZ o 2) ;;
  let orientation := if Nat.eqb (i mod 2) 0 then opp o (magnet_magnetization k) else magnet_magnetization k in
  Ok [ DrawPolygon [ polar (rotor_inner_radius k) (c -. half); polar inner (c -. half); polar inner (c +. half); polar (rotor_inner_radius k) (c +. half) ];
       DrawRegion (polar (rotor_inner_radius k -. t2) c) (zero o, polar orientation c, iron_linear) ].
Fixpoint collect {X} (f : nat -> res (list X)) (n i : nat) : res (list X) :=
  match n with
  | O => Ok []
  | S n' => l <- f i ;; l' <- collect f n' (S i) ;; Ok (l ++ l')
  end.
(** lines 104-250 *)
Definition motor_calls (k : motor) (stator_poles rotor_poles : nat) : res (list call) :=
  step <- angle_step stator_poles ;;
  stem <- stem_half k step ;;
  cap <- cap_half k step ;;
  coils <- collect (coil_calls k step stem) stator_poles 0 ;;
  g2 <- div o (core_gap k) (ofZ o 2) ;;
  step2 <- div o step (ofZ o 2) ;;
  mstep <- angle_step rotor_poles ;;
  mhalf <- div o (mstep *. magnet_fill k) (ofZ o 2) ;;
  magnets <- collect (magnet_calls k mstep mhalf) rotor_poles 0 ;;
  r2 <- div o (rotor_outer_radius k +. rotor_inner_radius k) (ofZ o 2) ;;
  Ok (coils ++
      [ DrawPolygon (flat_map (pole_vertices k step stem cap) (seq 0 stator_poles));
        DrawCircle at0 (stator_inner_radius k) (stator_poles * 10);
        DrawRegion (polar (stator_outer_radius k) (zero o)) (zero o, at0, iron_linear);
        DrawRegion (polar (stator_outer_radius k +. g2) step2) (zero o, at0, air);
        DrawRegion at0 (zero o, at0, air);
        DrawCircle at0 (rotor_outer_radius k) (rotor_poles * 10) ] ++
      magnets ++
      [ DrawPolygon (flat_map (fun i => [magnet_side k mstep mhalf i false; magnet_side k mstep mhalf i true]) (seq 0 rotor_poles));
        DrawRegion (polar r2 (angle k)) (zero o, at0, iron_linear) ]).
End Examples.
