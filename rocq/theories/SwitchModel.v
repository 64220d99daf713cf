(** Model of how the mesher is started: the switch string (mesh/mesh.hpp 219-220) and its reading by the vendored Triangle
    library (triangle/triangle.cpp, parsecommandline, built with TRILIBRARY, without CDT_ONLY and REDUCED: 214, 239-252).
    The rounding of strtod to the nearest double is left out: the numbers read are exact decimals. *)
From Coq Require Import String Ascii.
From Coq Require Import List Arith ZArith Bool.
From Coq Require Import SpecFloat.
From Verif Require Import Base.
Import ListNotations.
Local Open Scope Z_scope.
Local Open Scope char_scope.

(** ** sprintf *)
Definition digit (d : Z) : ascii := ascii_of_nat (48 + Z.to_nat d).
(** the decimal digits of a number that is not negative, at least one *)
Fixpoint digits_from (fuel : nat) (z : Z) (acc : list ascii) : list ascii :=
  match fuel with
  | O => acc
  | S f => if Z.ltb z 10 then digit z :: acc else digits_from f (z / 10) (digit (z mod 10) :: acc)
  end.
Definition digits (z : Z) : list ascii := digits_from (S (Z.to_nat (Z.log2 z))) z [].
(** %d *)
Definition print_int (z : Z) : list ascii := if Z.ltb z 0 then "-" :: digits (- z) else digits z.
(** exactly k digits, the last k of z *)
Fixpoint padded (k : nat) (z : Z) (acc : list ascii) : list ascii :=
  match k with O => acc | S k' => padded k' (z / 10) (digit (z mod 10) :: acc) end.
(** a/b rounded to the nearest integer, ties to even (0 <= a, 0 < b) *)
Definition nearest (a b : Z) : Z :=
  let q := a / b in
  match Z.compare (2 * (a mod b)) b with
  | Lt => q
  | Gt => q + 1
  | Eq => if Z.even q then q else q + 1
  end.
(** m 2^e in units of 10^-17 *)
Definition scaled (m e : Z) : Z :=
  if Z.leb 0 e then m * 2 ^ e * 10 ^ 17 else nearest (m * 10 ^ 17) (2 ^ (- e)).
Definition print_units (n : Z) : list ascii := digits (n / 10 ^ 17) ++ "." :: padded 17 n [].
Definition sign (s : bool) : list ascii := if s then ["-"] else [].
(** %.17f of a double (glibc) *)
Definition print_double (x : spec_float) : list ascii :=
  match x with
  | S754_zero s => sign s ++ print_units 0
  | S754_infinity s => sign s ++ ["i"; "n"; "f"]
  | S754_nan => ["n"; "a"; "n"]
  | S754_finite s m e => sign s ++ print_units (scaled (Z.pos m) e)
  end.
(** mesh.hpp 219-220: char switches[42]; sprintf(switches, "pzq%dAQa%.17f", min_angle, max_triangle_area) *)
Definition switches (angle : Z) (area : spec_float) : res (list ascii) :=
  let s := ["p"; "z"; "q"] ++ print_int angle ++ ["A"; "Q"; "a"] ++ print_double area in
  if Nat.leb (S (length s)) 42 then Ok s else UB "sprintf past the end of switches".

(** ** parsecommandline *)
(** the integer fields of struct behavior (791-804) that the function sets *)
Inductive opt :=
  | poly | refine | quality | vararea | fixedarea | usertest | regionattrib | convex | weighted | jettison | firstnumber
  | edgesout | voronoi | neighbors | geomview | nobound | nopolywritten | nonodewritten | noelewritten | noholes | noexact
  | incremental | sweepline | dwyer | splitseg | docheck | nobisect | conformdel | steiner | order | quiet | verbose
  | usesegments.
Scheme Equality for opt.
(** a decimal number v * 10^-k *)
Record dec := mkDec { d_val : Z; d_places : nat }.
Record behavior := mkB { b_opt : opt -> Z; b_minangle : dec; b_maxarea : dec }.
Definition put (f : opt) (v : Z) (b : behavior) : behavior :=
  mkB (fun g => if opt_beq f g then v else b_opt b g) (b_minangle b) (b_maxarea b).
(** 3314-3332 *)
Definition start : behavior :=
  mkB (fun f => match f with firstnumber | dwyer | order => 1 | steiner => -1 | _ => 0 end) (mkDec 0 0) (mkDec (-1) 0).

Definition is_digit (c : ascii) : bool := Nat.leb 48 (nat_of_ascii c) && Nat.leb (nat_of_ascii c) 57.
Definition numeric (c : ascii) : bool := is_digit c || Ascii.eqb c ".".
Definition digit_of (c : ascii) : Z := Z.of_nat (nat_of_ascii c) - 48.
Fixpoint span (f : ascii -> bool) (s : list ascii) : list ascii * list ascii :=
  match s with
  | c :: s' => if f c then let '(a, b) := span f s' in (c :: a, b) else ([], s)
  | [] => ([], [])
  end.
(** strtod of digits and points: up to the second point *)
Fixpoint strtod_frac (s : list ascii) (v : Z) (k : nat) : dec :=
  match s with
  | c :: s' => if is_digit c then strtod_frac s' (10 * v + digit_of c) (S k) else mkDec v k
  | [] => mkDec v k
  end.
Fixpoint strtod_int (s : list ascii) (v : Z) : dec :=
  match s with
  | c :: s' => if is_digit c then strtod_int s' (10 * v + digit_of c) else if Ascii.eqb c "." then strtod_frac s' v 0 else mkDec v 0
  | [] => mkDec v 0
  end.
Definition strtod (s : list ascii) : dec := strtod_int s 0.
(** the digits and points that follow, copied to workstring[2048] (280, 3312) *)
Definition number (s : list ascii) : res (dec * list ascii) :=
  let '(w, r) := span numeric s in
  if Nat.ltb (length w) 2048 then Ok (strtod w, r) else UB "workstring".
Definition starts_number (s : list ascii) : bool := match s with c :: _ => numeric c | [] => false end.

(** 3341-3494: one switch and what it takes from the rest of the string.  The code tests the character against every
    letter in turn; at most one test succeeds, for a taken digit or point none. *)
Definition switch (c : ascii) (s : list ascii) (b : behavior) : res (behavior * list ascii) :=
  match c with
  | "p" => Ok (put poly 1 b, s)
  | "r" => Ok (put refine 1 b, s)
  | "q" =>
      let b := put quality 1 b in
      if starts_number s then '(x, r) <- number s ;; Ok (mkB (b_opt b) x (b_maxarea b), r)
      else Ok (mkB (b_opt b) (mkDec 20 0) (b_maxarea b), s)
  | "a" =>
      let b := put quality 1 b in
      if starts_number s then
        '(x, r) <- number s ;;
        if Z.leb (d_val x) 0 then UB "triexit: Maximum area must be greater than zero"
        else let b := put fixedarea 1 b in Ok (mkB (b_opt b) (b_minangle b) x, r)
      else Ok (put vararea 1 b, s)
  | "u" => Ok (put usertest 1 (put quality 1 b), s)
  | "A" => Ok (put regionattrib 1 b, s)
  | "c" => Ok (put convex 1 b, s)
  | "w" => Ok (put weighted 1 b, s)
  | "W" => Ok (put weighted 2 b, s)
  | "j" => Ok (put jettison 1 b, s)
  | "z" => Ok (put firstnumber 0 b, s)
  | "e" => Ok (put edgesout 1 b, s)
  | "v" => Ok (put voronoi 1 b, s)
  | "n" => Ok (put neighbors 1 b, s)
  | "g" => Ok (put geomview 1 b, s)
  | "B" => Ok (put nobound 1 b, s)
  | "P" => Ok (put nopolywritten 1 b, s)
  | "N" => Ok (put nonodewritten 1 b, s)
  | "E" => Ok (put noelewritten 1 b, s)
  | "O" => Ok (put noholes 1 b, s)
  | "X" => Ok (put noexact 1 b, s)
  | "o" => match s with "2" :: r => Ok (put order 2 b, r) | _ => Ok (b, s) end
  | "Y" => Ok (put nobisect (b_opt b nobisect + 1) b, s)
  | "S" => let '(w, r) := span is_digit s in Ok (put steiner (d_val (strtod w)) b, r)
  | "i" => Ok (put incremental 1 b, s)
  | "F" => Ok (put sweepline 1 b, s)
  | "l" => Ok (put dwyer 0 b, s)
  | "s" => Ok (put splitseg 1 b, s)
  | "D" | "L" => Ok (put conformdel 1 (put quality 1 b), s)
  | "C" => Ok (put docheck 1 b, s)
  | "Q" => Ok (put quiet 1 b, s)
  | "V" => Ok (put verbose (b_opt b verbose + 1) b, s)
  | _ => Ok (b, s)
  end.
Fixpoint parse (fuel : nat) (s : list ascii) (b : behavior) : res behavior :=
  match fuel, s with
  | S f, c :: s' => '(b, r) <- switch c s' b ;; parse f r b
  | _, _ => Ok b
  end.
Definition nonzero (b : behavior) (f : opt) : bool := negb (Z.eqb (b_opt b f) 0).
(** 3533, 3546-3565 (goodangle and offconstant, 3534-3540, are left out) *)
Definition finish (b : behavior) : behavior :=
  let b := put usesegments (if nonzero b poly || nonzero b refine || nonzero b quality || nonzero b convex then 1 else 0) b in
  let b := if negb (nonzero b refine) && negb (nonzero b poly) then put vararea 0 b else b in
  let b := if nonzero b refine || negb (nonzero b poly) then put regionattrib 0 b else b in
  if nonzero b weighted && (nonzero b poly || nonzero b quality) then put weighted 0 b else b.
(** 3295-3571 *)
Definition parsecommandline (s : list ascii) : res behavior :=
  b <- parse (length s) s start ;; Ok (finish b).
(** mesh.hpp 219-241: the options Triangle works with *)
Definition mesher_options (angle : Z) (area : spec_float) : res behavior :=
  s <- switches angle area ;; parsecommandline s.
