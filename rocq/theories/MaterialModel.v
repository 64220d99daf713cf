(** Model of lib/nikfemm/src/magnetostatic/properties.{hpp,cpp} and of MagnetostaticSimulation::updateMu
    (magnetostatic/simulation.cpp 23-40). *)
From Coq Require Import String.
From Coq Require Import List Arith ZArith NArith Bool.
From Verif Require Import Base AlgebraModel GeometryModel.
Import ListNotations.

Section MaterialM.
Variable o : Ops.
Notation T := (T o).
Notation vec := (vec o).
Notation "x '+.' y" := (add o x y) (at level 50, left associativity).
Notation "x '-.' y" := (sub o x y) (at level 50, left associativity).
Notation "x '*.' y" := (mul o x y) (at level 40, left associativity).

(** properties.hpp 9-15: BH_Point, (B, H) *)
Definition bh : Type := T * T.
(** properties.hpp 34: BH_Curve is a std::set<BH_Point> ordered by B (17-22); as the list of its elements in order.
    set::insert keeps the element already present when B is equivalent. *)
Fixpoint bh_insert (c : list bh) (p : bh) : list bh :=
  match c with
  | [] => [p]
  | q :: r => if ltb o (fst q) (fst p) then q :: bh_insert r p else if ltb o (fst p) (fst q) then p :: c else c
  end.
(** a curve written as an initialiser list, such as magnetostatic_materials::iron (57) *)
Definition bh_curve (l : list bh) : list bh := fold_left bh_insert l [].

(** properties.hpp 38-50: MagnetostaticProp *)
Record mprop := mkProp { p_J : T; p_M : vec; p_mu : T; p_bh : list bh }.

(** properties.cpp 9-11: isLinear *)
Definition isLinear (p : mprop) : bool := Nat.eqb (length (p_bh p)) 0.

(** std::set::lower_bound({B, 0}): position of the first element whose B is not smaller (set ordered by B) *)
Fixpoint lower_bound (c : list bh) (B : T) : nat :=
  match c with
  | [] => 0
  | q :: r => if ltb o (fst q) B then S (lower_bound r B) else 0
  end.

(** properties.cpp 28-36, 38-46, 48-56: (B2 - B1) / (H2 - H1); reading at end() is undefined ([get]) *)
Definition slope_at (c : list bh) (i j : nat) : res T :=
  p <- get c i ;; q <- get c j ;; div o (fst q -. fst p) (snd q -. snd p).

(** properties.cpp 13-58: getMu *)
Definition getMu (p : mprop) (B : T) : res T :=
  let c := p_bh p in
  if Nat.eqb (length c) 0 then Ok (p_mu p)
  else if Nat.eqb (length c) 1 then Throw "BH curve cannot have only one point"
  else
    let it := lower_bound c B in
    if Nat.eqb it 0 then slope_at c it (S it)
    else if Nat.eqb it (length c) then slope_at c (it - 1) (it - 2)
    else slope_at c it (S it).

(** properties.cpp 60-62: operator==; Vector::operator== compares with a tolerance, BH_Point::operator== (5-7) exactly *)
Fixpoint bh_eqb (c d : list bh) : bool :=
  match c, d with
  | [], [] => true
  | p :: c, q :: d => eqb o (fst p) (fst q) && eqb o (snd p) (snd q) && bh_eqb c d
  | _, _ => false
  end.
Definition prop_eqb (p q : mprop) : res bool :=
  if eqb o (p_mu p) (p_mu q) && eqb o (p_J p) (p_J q) then
    b <- vec_eqb o (p_M p) (p_M q) ;; Ok (b && bh_eqb (p_bh p) (p_bh q))
  else Ok false.

(** exp, and the constant magnetostatic_materials::vacuum (properties.hpp 54) *)
Variable fexp : T -> T.
Variable vacuum : T.

(** simulation.cpp 31-38: the new permeability of one triangle; k is kalman_scemo *)
Definition relax (k residual : T) (p : mprop) (old : T) (B : vec) : res T :=
  Bmag <- GeometryModel.norm o B ;;
  g <- getMu p Bmag ;;
  if isLinear p then Ok g
  else Ok (g *. (one o -. k) +. (old +. vacuum *. residual *. residual) *. k).
(** simulation.cpp 23-40: updateMu.  The assert is modelled as a throw (abort). *)
Definition updateMu (Bs : list vec) (props : list mprop) (mu : list T) (residual : T) (iter : nat) : res (list T) :=
  if negb (Nat.eqb (length mu) (length Bs)) then Throw "assert mu.size() == B.size()"
  else
    k <- div o (opp o (ofZ o (Z.of_nat iter))) (ofZ o 5) ;;
    let k := fexp k in
    forM_up (length Bs) (fun i mu =>
      B <- get Bs i ;; p <- get props i ;; old <- get mu i ;;
      v <- relax k residual p old B ;;
      set mu i v) mu.

End MaterialM.

Arguments mkProp {o}.
Arguments p_J {o}.
Arguments p_M {o}.
Arguments p_mu {o}.
Arguments p_bh {o}.
