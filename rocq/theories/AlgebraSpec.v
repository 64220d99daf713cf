(** Specification vocabulary for the linear algebra properties (C01-C18).  No proofs, no implementation:
    only what a reader needs in order to read the theorems in Props_Algebra.v. *)
From Coq Require Import String.
From Coq Require Import List Arith ZArith NArith Bool Reals Permutation.
From Verif Require Import Base AlgebraModel SumR.
Import ListNotations.

(** ** COO matrices *)
Section CooSpec.
Context {V : Type}.
Variable v0 : V.

(** accesses through A(i,j), and what the caller sees *)
Inductive cop := CRead (i j : nat) | CWrite (i j : nat) (v : V).
Inductive cout := OVal (v : V) | ODone | OThrown.
Definition op_u32 (op : cop) : Prop :=
  match op with CRead i j => is_u32 i /\ is_u32 j | CWrite i j _ => is_u32 i /\ is_u32 j end.

(** the abstract object: a total function from positions to values.  It knows nothing about keys or lists. *)
Definition spec := nat -> nat -> V.
Definition spec_step (s : spec) (op : cop) : spec * cout :=
  match op with
  | CRead i j => if Nat.leb i j then (s, OVal (s i j)) else (s, OThrown)
  | CWrite i j v => if Nat.leb i j
                    then ((fun a b => if Nat.eqb a i && Nat.eqb b j then v else s a b), ODone)
                    else (s, OThrown)
  end.
Fixpoint spec_run (s : spec) (ops : list cop) : list cout :=
  match ops with
  | [] => []
  | op :: ops' => let '(s', out) := spec_step s op in out :: spec_run s' ops'
  end.

(** one access of the modelled implementation, after which the hash map may iterate in any order *)
Inductive cstep : coo V -> cop -> coo V -> cout -> Prop :=
| cs_read : forall A i j A1 A2 v, coo_read v0 A i j = Ok (A1, v) ->
    Permutation (elems A1) (elems A2) -> cm A2 = cm A1 -> cstep A (CRead i j) A2 (OVal v)
| cs_read_throw : forall A i j s, coo_read v0 A i j = Throw s -> cstep A (CRead i j) A OThrown
| cs_write : forall A i j v A1 A2, coo_modify v0 A i j (fun _ => v) = Ok A1 ->
    Permutation (elems A1) (elems A2) -> cm A2 = cm A1 -> cstep A (CWrite i j v) A2 ODone
| cs_write_throw : forall A i j v s, coo_modify v0 A i j (fun _ => v) = Throw s -> cstep A (CWrite i j v) A OThrown.
Inductive crun : coo V -> list cop -> coo V -> list cout -> Prop :=
| cr_nil : forall A, crun A [] A []
| cr_cons : forall A op A1 out ops A2 outs, cstep A op A1 out -> crun A1 ops A2 outs ->
    crun A (op :: ops) A2 (out :: outs).

(** a matrix whose stored positions are distinct, upper triangular and inside its size *)
Definition valid_coo (A : coo V) : Prop :=
  NoDup (map fst (elems A)) /\
  forall k v, In (k, v) (elems A) -> exists i j, i <= j /\ j < cm A /\ k = key i j.
(** sizes representable in the uint32_t counters of the class *)
Definition fits (A : coo V) : Prop := is_u32 (cm A + 1) /\ is_u32 (length (elems A)).
(** position (i,j) has been touched *)
Definition touched (A : coo V) (i j : nat) : Prop := In (key i j) (map fst (elems A)).
Definition all_diag_touched (A : coo V) : Prop := forall i, i < cm A -> touched A i i.
(** number of stored off-diagonal positions *)
Definition offdiag_count (A : coo V) : nat :=
  length (filter (fun kv => negb (Nat.eqb (krow (fst kv)) (kcol (fst kv)))) (elems A)).
(** value of the symmetric matrix at {i,j} *)
Definition value (A : coo V) (i j : nat) : V :=
  match find_key (elems A) (key (Nat.min i j) (Nat.max i j)) with Some v => v | None => v0 end.
End CooSpec.
Arguments cop : clear implicits.
Arguments cout : clear implicits.
Arguments spec : clear implicits.

(** ** Real vectors and systems *)
Local Open Scope R_scope.
Notation rcsr := (csr R).
Notation rsys := (system R).

(** Euclidean inner product of two vectors of the same length *)
Definition dotR (a b : list R) : R := sumn (length a) (fun i => vget a i * vget b i).

Definition valid_system {V} (S : system V) : Prop :=
  valid_coo (sA V S) /\ cm (sA V S) = length (sb V S) /\ is_u32 (length (sb V S)).
Definition sdim (S : rsys) : nat := length (sb R S).
(** equation number i of the system holds for x *)
Definition row_eq (S : rsys) (x : nat -> R) (i : nat) : Prop :=
  sumn (sdim S) (fun j => value 0 (sA R S) i j * x j) = vget (sb R S) i.
Definition solves (S : rsys) (x : nat -> R) : Prop := forall i, (i < sdim S)%nat -> row_eq S x i.
Definition quad (n : nat) (a : nat -> nat -> R) (x : nat -> R) : R := sumn n (fun i => sumn n (fun j => x i * a i j * x j)).
Definition posdef (n : nat) (a : nat -> nat -> R) : Prop := forall x, (exists i, (i < n)%nat /\ x i <> 0) -> 0 < quad n a x.
(** two systems denote the same equations *)
Definition same_system (S1 S2 : rsys) : Prop :=
  sdim S1 = sdim S2 /\
  (forall i j, (i < sdim S1)%nat -> (j < sdim S1)%nat -> value 0 (sA R S1) i j = value 0 (sA R S2) i j) /\ sb R S1 = sb R S2.
(** same observable contents, for an arbitrary scalar type *)
Definition sys_equiv {V} (S1 S2 : system V) : Prop :=
  sb V S1 = sb V S2 /\ cm (sA V S1) = cm (sA V S2) /\ forall k, find_key (elems (sA V S1)) k = find_key (elems (sA V S2)) k.
(** a list of Dirichlet conditions applied one after the other *)
Fixpoint dirichlet_all (S : rsys) (l : list (nat * R)) : res rsys :=
  match l with [] => Ok S | (id, v) :: l' => S' <- dDirichlet ROps S id v ;; dirichlet_all S' l' end.

(** ** Non-linear expressions *)
Notation rexpr := (nexpr ROps).
(** value of an expression for a vector of permeabilities *)
Definition ne_val (e : rexpr) (mu : list R) : R :=
  constant ROps e + suml (terms ROps e) (fun t => fst t / vget mu (snd t)).
(** the vector covers every index the expression mentions and has no zero there *)
Definition ne_ok (e : rexpr) (mu : list R) : Prop :=
  Forall (fun t => (snd t < length mu)%nat /\ vget mu (snd t) <> 0) (terms ROps e).

(** programs over named expression objects *)
Inductive neop :=
| NSet (i : nat) (d : R)          (* e_i = d *)
| NCopy (i j : nat)               (* e_i = e_j *)
| NAddNum (i : nat) (d : R)       (* e_i += d *)
| NAddTerm (i : nat) (a : R) (k : nat)   (* e_i += NonLinearTerm(a,k) *)
| NAdd (i j : nat)                (* e_i += e_j *)
| NSubNum (i : nat) (d : R)
| NSubTerm (i : nat) (a : R) (k : nat)
| NSub (i j : nat)
| NMul (i j : nat) (d : R).       (* e_i = e_j * d *)
Definition nst := nat -> rexpr.
Definition nput {A} (st : nat -> A) (i : nat) (e : A) : nat -> A := fun k => if Nat.eqb k i then e else st k.
(** the modelled implementation *)
Definition neop_run (op : neop) (st : nst) : res nst :=
  match op with
  | NSet i d => Ok (nput st i (ne_const ROps d))
  | NCopy i j => Ok (nput st i (st j))
  | NAddNum i d => Ok (nput st i (ne_add_num ROps (st i) d))
  | NAddTerm i a k => Ok (nput st i (ne_add_term ROps (st i) (a, k)))
  | NAdd i j => if Nat.eqb i j then (e <- ne_add_self ROps (st i) ;; Ok (nput st i e)) else Ok (nput st i (ne_add ROps (st i) (st j)))
  | NSubNum i d => Ok (nput st i (ne_sub_num ROps (st i) d))
  | NSubTerm i a k => Ok (nput st i (ne_sub_term ROps (st i) (a, k)))
  | NSub i j => if Nat.eqb i j then (e <- ne_sub_self ROps (st i) ;; Ok (nput st i e)) else Ok (nput st i (ne_sub ROps (st i) (st j)))
  | NMul i j d => Ok (nput st i (ne_scale ROps (st j) d))
  end.
Fixpoint neprog (l : list neop) (st : nst) : res nst :=
  match l with [] => Ok st | op :: l' => st' <- neop_run op st ;; neprog l' st' end.
(** what the program means on numbers, for fixed permeabilities *)
Definition neop_mean (mu : list R) (op : neop) (x : nat -> R) : nat -> R :=
  match op with
  | NSet i d => nput x i d
  | NCopy i j => nput x i (x j)
  | NAddNum i d => nput x i (x i + d)
  | NAddTerm i a k => nput x i (x i + a / vget mu k)
  | NAdd i j => nput x i (x i + x j)
  | NSubNum i d => nput x i (x i - d)
  | NSubTerm i a k => nput x i (x i - a / vget mu k)
  | NSub i j => nput x i (x i - x j)
  | NMul i j d => nput x i (x j * d)
  end.
Fixpoint neprog_mean (mu : list R) (l : list neop) (x : nat -> R) : nat -> R :=
  match l with [] => x | op :: l' => neprog_mean mu l' (neop_mean mu op x) end.
(** permeability indices a program mentions *)
Definition neop_idx (op : neop) : list nat := match op with NAddTerm _ _ k => [k] | NSubTerm _ _ k => [k] | _ => [] end.
Definition mu_ok (mu : list R) (k : nat) : Prop := (k < length mu)%nat /\ vget mu k <> 0.
(** no object is added to or subtracted from itself *)
Definition no_self (op : neop) : Prop := match op with NAdd i j => i <> j | NSub i j => i <> j | _ => True end.

(** numeric COO matrix obtained by evaluating every stored expression *)
Definition coo_eval (A : coo rexpr) (mu : list R) : coo R :=
  mkCoo (map (fun kv => (fst kv, ne_val (snd kv) mu)) (elems A)) (cm A).
Definition sys_eval (S : nsystem ROps) (mu : list R) : rsys :=
  mkSys R (coo_eval (sA _ S) mu) (map (fun e => ne_val e mu) (sb _ S)).
Definition sys_ok (S : nsystem ROps) (mu : list R) : Prop :=
  (forall k e, In (k, e) (elems (sA _ S)) -> ne_ok e mu) /\ (forall e, In e (sb _ S) -> ne_ok e mu).
(** every state the symbolic matrix can be in after construction and any successful evaluations *)
Inductive ncsr_reach (A : coo rexpr) : ncsr ROps -> Prop :=
| reach_build : forall M, ncsr_build ROps A = Ok M -> ncsr_reach A M
| reach_eval : forall M mu M', ncsr_reach A M -> ncsr_evaluate ROps A M mu = Ok M' -> ncsr_reach A M'.

(** ** Elementwise kernels on a store of vectors: the result depends only on the contents before the call,
    nothing but the result vector changes, and it changes only at the positions of the first operand *)
Definition pointwise2 (o : Ops) (st st' : store o) (r a b : nat) (g : T o -> T o -> T o) : Prop :=
  (forall k, k <> r -> st' k = st k) /\ length (st' r) = length (st r) /\
  (forall i x y, nth_error (st a) i = Some x -> nth_error (st b) i = Some y -> nth_error (st' r) i = Some (g x y)) /\
  (forall i, (length (st a) <= i)%nat -> nth_error (st' r) i = nth_error (st r) i).
Definition pointwise1 (o : Ops) (st st' : store o) (r a : nat) (g : T o -> T o) : Prop :=
  (forall k, k <> r -> st' k = st k) /\ length (st' r) = length (st r) /\
  (forall i x, nth_error (st a) i = Some x -> nth_error (st' r) i = Some (g x)) /\
  (forall i, (length (st a) <= i)%nat -> nth_error (st' r) i = nth_error (st r) i).
