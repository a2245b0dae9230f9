(** Specification of assignment targets: where the bits of the right-hand side land. *)
From Verif Require Import Base M_Slice S_Slice S_Flow.

Section Spec.
Variable V : Type.
Variable vz : V.

(** A target: a constant select, a select with a variable index, a concatenation (most
    significant first).  [at_] gives the offset inside the static prefix from the value of
    the index. *)
Inductive target :=
| TSel (p : path) (w : nat)
| TVar (p : path) (w : nat) (idx : expr V) (at_ : list V -> nat)
| TCat (l : list target).

Fixpoint tw (t : target) : nat :=
  match t with TSel _ w => w | TVar _ w _ _ => w | TCat l => list_sum (map tw l) end.
(** The expression slang has for it; the value of a target is not used. *)
Fixpoint texpr (t : target) : expr V :=
  match t with
  | TSel p w => ELsp p w
  | TVar p w idx _ => EDyn p w [idx] (fun _ _ => [])
  | TCat l => EConcat (list_sum (map tw l)) (map texpr l)
  end.
(** The symbol bit that gets each bit of the right-hand side, least significant first. *)
Definition at_bits (p : path) (off w : nat) : list (nat * nat) :=
  match proot p with Some s => map (fun k => (s, plo p + off + k)) (seq 0 w) | None => [] end.
Fixpoint lands (v : env V) (t : target) : list (nat * nat) :=
  match t with
  | TSel p w => at_bits p 0 w
  | TVar p w idx at_ => at_bits p (at_ (eval vz v idx)) w
  | TCat l => concat (rev (map (lands v) l))
  end.
(** Slang's contract: a root variable, a static select as wide as its bounds, and an index
    that stays inside the static prefix. *)
Fixpoint well_formed (t : target) : Prop :=
  match t with
  | TSel p w => proot p <> None /\ plo p <= phi p /\ w = phi p + 1 - plo p
  | TVar p w _ at_ => proot p <> None /\ 0 < w /\ forall x, at_ x + w <= phi p + 1 - plo p
  | TCat l => fold_right (fun x P => well_formed x /\ P) True l
  end.
Fixpoint constant_target (t : target) : Prop :=
  match t with
  | TSel _ _ => True
  | TVar _ _ _ _ => False
  | TCat l => fold_right (fun x P => constant_target x /\ P) True l
  end.
(** The bits that decide where the assignment lands. *)
Fixpoint index_reads (t : target) : list (nat * nat) :=
  match t with
  | TSel _ _ => []
  | TVar _ _ idx _ => reads idx
  | TCat l => flat_map index_reads l
  end.
(** The paths of the index expressions are in range. *)
Fixpoint indices_ok (t : target) : Prop :=
  match t with TSel _ _ => True | TVar _ _ i _ => paths_ok i | TCat l => fold_right (fun x P => indices_ok x /\ P) True l end.
End Spec.
Arguments TSel {V} _ _.
Arguments TVar {V} _ _ _ _.
Arguments TCat {V} _.
Arguments tw {V} _.
Arguments texpr {V} _.
Arguments lands {V} _ _ _.
Arguments well_formed {V} _.
Arguments constant_target {V} _.
Arguments index_reads {V} _.
Arguments indices_ok {V} _.
