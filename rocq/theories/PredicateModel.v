(** The geometric predicates of the vendored mesh generator (lib/nikfemm/src/triangle/triangle.cpp): the constants computed at start-up and the
    first stage of the orientation and incircle tests.  Where the code calls its adaptive stages the model says so
    and returns what it hands to them; [counterclockwiseadapt] is in ExpansionModel.v, [incircleadapt] is not modelled.  The counters of calls are left out. *)
From Coq Require Import List Arith ZArith Bool.
From Verif Require Import Base GeometryModel.
Import ListNotations.

Section Predicates.
Variable o : Ops.
Notation T := (T o).
Notation vec := (vec o).
Local Notation "a +. b" := (add o a b) (at level 50, left associativity).
Local Notation "a -. b" := (sub o a b) (at level 50, left associativity).
Local Notation "a *. b" := (mul o a b) (at level 40, left associativity).

(** triangle.cpp 654-658, without the bounds of the three-dimensional test *)
Record bounds := mkBounds { epsilon : T; splitter : T; resulterrbound : T; ccwerrboundA : T; ccwerrboundB : T; ccwerrboundC : T;
  iccerrboundA : T; iccerrboundB : T; iccerrboundC : T }.

(** triangle.cpp 4935-4943: the do-while loop; None when it has not ended after [fuel] rounds *)
Fixpoint init_loop (fuel : nat) (half : T) (every_other : bool) (eps spl check : T) : option (T * T) :=
  match fuel with
  | O => None
  | S fuel' =>
    let lastcheck := check in
    let eps := eps *. half in
    let spl := if every_other then spl *. ofZ o 2 else spl in
    let check := one o +. eps in
    if negb (eqb o check (one o)) && negb (eqb o check lastcheck) then init_loop fuel' half (negb every_other) eps spl check
    else Some (eps, spl)
  end.
(** triangle.cpp 4926-4957; the control word of the FPU is taken to be set already (4915-4924) *)
Definition exactinit (fuel : nat) (half : T) : option bounds :=
  match init_loop fuel half true (one o) (one o) (one o) with
  | None => None
  | Some (e, s) => let n := ofZ o in Some (mkBounds e (s +. one o)
      ((n 3%Z +. n 8%Z *. e) *. e) ((n 3%Z +. n 16%Z *. e) *. e) ((n 2%Z +. n 12%Z *. e) *. e) ((n 9%Z +. n 64%Z *. e) *. e *. e)
      ((n 10%Z +. n 96%Z *. e) *. e) ((n 4%Z +. n 48%Z *. e) *. e) ((n 44%Z +. n 576%Z *. e) *. e *. e))
  end.

(** what a predicate does: it returns a determinant, or calls its adaptive stage with the magnitude it has found *)
Inductive stage := Returned (det : T) | Adaptive (magnitude : T).

(** triangle.cpp 5265-5301 *)
Definition counterclockwise (B : bounds) (noexact : bool) (pa pb pc : vec) : stage :=
  let detleft := (vx pa -. vx pc) *. (vy pb -. vy pc) in
  let detright := (vy pa -. vy pc) *. (vx pb -. vx pc) in
  let det := detleft -. detright in
  let filter (detsum : T) :=
    let errbound := ccwerrboundA B *. detsum in
    if geb o det errbound || geb o (opp o det) errbound then Returned det else Adaptive detsum in
  if noexact then Returned det
  else if gtb o detleft (zero o) then
    if leb o detright (zero o) then Returned det else filter (detleft +. detright)
  else if ltb o detleft (zero o) then
    if geb o detright (zero o) then Returned det else filter (opp o detleft -. detright)
  else Returned det.

(** triangle.cpp 5916-5961 *)
Definition incircle (B : bounds) (noexact : bool) (pa pb pc pd : vec) : stage :=
  let adx := vx pa -. vx pd in
  let bdx := vx pb -. vx pd in
  let cdx := vx pc -. vx pd in
  let ady := vy pa -. vy pd in
  let bdy := vy pb -. vy pd in
  let cdy := vy pc -. vy pd in
  let bdxcdy := bdx *. cdy in
  let cdxbdy := cdx *. bdy in
  let alift := adx *. adx +. ady *. ady in
  let cdxady := cdx *. ady in
  let adxcdy := adx *. cdy in
  let blift := bdx *. bdx +. bdy *. bdy in
  let adxbdy := adx *. bdy in
  let bdxady := bdx *. ady in
  let clift := cdx *. cdx +. cdy *. cdy in
  let det := alift *. (bdxcdy -. cdxbdy) +. blift *. (cdxady -. adxcdy) +. clift *. (adxbdy -. bdxady) in
  if noexact then Returned det else
  let permanent := (fabs o bdxcdy +. fabs o cdxbdy) *. alift +. (fabs o cdxady +. fabs o adxcdy) *. blift +. (fabs o adxbdy +. fabs o bdxady) *. clift in
  let errbound := iccerrboundA B *. permanent in
  if gtb o det errbound || gtb o (opp o det) errbound then Returned det else Adaptive permanent.
End Predicates.
Arguments Returned {o}.
Arguments Adaptive {o}.
