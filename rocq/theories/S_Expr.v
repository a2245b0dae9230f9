(** Specification of expression walks: the evaluation paths of an expression.  No analysis
    states. *)
From Verif Require Import Base M_Range M_DFA M_Expr.

(** A path: the references made, in order. *)
Definition epath := list ref.
Definition ecat (P Q : list epath) : list epath := flat_map (fun t => map (app t) Q) P.

Section Paths.
Variable short_circuit : bool.
Variable not_splits : bool.

(** The paths through an expression ([None]) or those with a given outcome. An operand
    that is not a condition is followed once, whatever its value. *)
Fixpoint epaths (o : option bool) (e : vx) : list epath :=
  let both (f : bool -> list epath) :=
    match o with Some b => f b | None => f true ++ f false end in
  match e with
  | XNone => [[]]
  | XRef r => [[r]]
  | XSeq a b => ecat (epaths None a) (epaths None b)
  | XNot a => if not_splits then both (fun b => epaths (Some (negb b)) a) else epaths None a
  | XAnd a b =>
      if short_circuit then
        both (fun v => ecat (epaths (Some true) a) (epaths (Some v) b) ++
                       (if v then [] else epaths (Some false) a))
      else ecat (epaths None a) (epaths None b)
  | XOr a b =>
      if short_circuit then
        both (fun v => ecat (epaths (Some false) a) (epaths (Some v) b) ++
                       (if v then epaths (Some true) a else []))
      else ecat (epaths None a) (epaths None b)
  | XCond c a b =>
      ecat (epaths (Some true) c) (epaths None a) ++ ecat (epaths (Some false) c) (epaths None b)
  end.

(** The references of an expression, in source order, each with the paths that lead to it. *)
Definition eafter (P : list epath) (x : list epath * ref) : list epath * ref := (ecat P (fst x), snd x).
Fixpoint occ (e : vx) : list (list epath * ref) :=
  match e with
  | XNone => []
  | XRef r => [([[]], r)]
  | XSeq a b => occ a ++ map (eafter (epaths None a)) (occ b)
  | XNot a => occ a
  | XAnd a b => occ a ++ map (eafter (epaths (if short_circuit then Some true else None) a)) (occ b)
  | XOr a b => occ a ++ map (eafter (epaths (if short_circuit then Some false else None) a)) (occ b)
  | XCond c a b => occ c ++ map (eafter (epaths (Some true) c)) (occ a) ++
                   map (eafter (epaths (Some false) c)) (occ b)
  end.
End Paths.

(** No branching operator. *)
Fixpoint plain_expr (e : vx) : bool :=
  match e with
  | XNone | XRef _ => true
  | XSeq a b => plain_expr a && plain_expr b
  | _ => false
  end.

(** Conditional expressions in last position only. *)
Inductive Tail : vx -> Prop :=
| tail_plain e : plain_expr e = true -> Tail e
| tail_seq a b : plain_expr a = true -> Tail b -> Tail (XSeq a b)
| tail_cond c a b : plain_expr c = true -> Tail a -> Tail b -> Tail (XCond c a b).

(** [x0 && x1 && .. && xk], [x0 || x1 || .. || xk]. *)
Fixpoint and_chain (x : vx) (l : list vx) : vx :=
  match l with [] => x | y :: r => and_chain (XAnd x y) r end.
Fixpoint or_chain (x : vx) (l : list vx) : vx :=
  match l with [] => x | y :: r => or_chain (XOr x y) r end.
