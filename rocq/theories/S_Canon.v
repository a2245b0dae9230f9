(** Specification vocabulary for canonical bodies. *)
From Verif Require Import Base M_Canon.

(** The member of a scope at a position: through generate blocks, generate block arrays and
    instance arrays, given by index and kind, to the member with index [i]. *)
Fixpoint at_pos (ms : list mem) (way : list (nat * pkind)) (i : nat) : option mem :=
  match way with
  | [] => nth_error ms i
  | (j, k) :: r =>
      match nth_error ms j with
      | Some (MScope k' ms') => if pkind_eqb k k' then at_pos ms' r i else None
      | _ => None
      end
  end.

Section S.
Variable members : nat -> list mem.
Variable direct : nat -> option nat.
Variable up : nat -> option nat.             (* the body around the instance of a body *)
Variable home : nat -> option nat.

Definition no_pointer (b : nat) : Prop := direct b = None \/ direct b = Some b.
(** The body an instance stands for. *)
Definition target (b : nat) : nat := match direct b with Some d => d | None => b end.
(** An instance with body [b] in [p], and one with body [b'] at the same position of [c]. *)
Definition paired (p b c b' : nat) : Prop := exists way i ms ms',
  at_pos (members p) way i = Some (MInst b ms) /\ at_pos (members c) way i = Some (MInst b' ms').
Definition vpaired (p v c w : nat) : Prop := exists way i,
  at_pos (members p) way i = Some (MVal v) /\ at_pos (members c) way i = Some (MVal w).

(** The canonical body of a body, from the outside in: its own pointer; itself in a
    canonical body; in a body with another canonical body, what stands at the same
    position there. *)
Inductive Canon : nat -> nat -> Prop :=
| can_pointer b d : direct b = Some d -> d <> b -> Canon b d
| can_top b : no_pointer b -> up b = None -> Canon b b
| can_inside b p : no_pointer b -> up b = Some p -> Canon p p -> Canon b b
| can_pair b p c b' : no_pointer b -> up b = Some p -> Canon p c -> c <> p -> paired p b c b' -> Canon b (target b')
| can_alone b p c : no_pointer b -> up b = Some p -> Canon p c -> c <> p -> (forall b', ~ paired p b c b') -> Canon b b.
Inductive CanonV : nat -> nat -> Prop :=
| cv_top v : home v = None -> CanonV v v
| cv_inside v p : home v = Some p -> Canon p p -> CanonV v v
| cv_pair v p c w : home v = Some p -> Canon p c -> c <> p -> vpaired p v c w -> CanonV v w
| cv_alone v p c : home v = Some p -> Canon p c -> c <> p -> (forall w, ~ vpaired p v c w) -> CanonV v v.
End S.

(** What slang guarantees. *)
Record ast_ok (members : nat -> list mem) (direct : nat -> option nat) (up : nat -> option nat) (home : nat -> option nat)
    (chain : nat -> list nat) : Prop := AstOk {
  (* the tree is one tree *)
  ok_members : forall p way i b ms, at_pos (members p) way i = Some (MInst b ms) -> members b = ms /\ up b = Some p;
  ok_home : forall p way i v, at_pos (members p) way i = Some (MVal v) -> home v = Some p;
  ok_place : forall p way i b ms way' i' ms', at_pos (members p) way i = Some (MInst b ms) ->
    at_pos (members p) way' i' = Some (MInst b ms') -> way' = way /\ i' = i;
  ok_vplace : forall p way i v way' i', at_pos (members p) way i = Some (MVal v) ->
    at_pos (members p) way' i' = Some (MVal v) -> way' = way /\ i' = i;
  ok_chain : forall b, chain b = b :: match up b with Some p => chain p | None => [] end;
  (* pointers are set on the outermost instances only; one set further in must agree *)
  ok_inner : forall b d p c b', direct b = Some d -> d <> b -> up b = Some p -> Canon members direct up p c -> c <> p ->
    paired members p b c b' -> d = target direct b' }.

(** Two scopes with the same structure. *)
Inductive same_mem : mem -> mem -> Prop :=
| same_val v w : same_mem (MVal v) (MVal w)
| same_inst b ms b' ms' : same_mem (MInst b ms) (MInst b' ms')
| same_scope k ms ms' : Forall2 same_mem ms ms' -> same_mem (MScope k ms) (MScope k ms')
| same_other k ms ms' : Forall2 same_mem ms ms' -> same_mem (MOther k ms) (MOther k ms').
