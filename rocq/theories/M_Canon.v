(** Model of source/CanonicalBodyResolver.cpp.

    Value symbols and instance bodies are numbers.  A scope is the list of its members;
    an instance is given by the number and the members of its body. *)
From Verif Require Import Base.

(** The scopes that are walked in lockstep. *)
Inductive pkind := PGen | PGenArray | PInstArray.
Definition pkind_eqb (a b : pkind) : bool :=
  match a, b with PGen, PGen | PGenArray, PGenArray | PInstArray, PInstArray => true | _, _ => false end.
Inductive mem :=
| MVal (v : nat)
| MInst (b : nat) (ms : list mem)
| MScope (k : pkind) (ms : list mem)
| MOther (k : nat) (ms : list mem).          (* any other symbol, with its members if it is a scope *)

(** flat_hash_map with emplace: an existing entry stays. *)
Definition cache := nat -> option nat.
Definition emplace (c : cache) (k v : nat) : cache := match c k with Some _ => c | None => upd c k (Some v) end.
Record caches := Caches { vcache : cache; bcache : cache }.
Definition no_caches : caches := Caches (fun _ => None) (fun _ => None).

Section Canon.
(** slang: the members of a body; the pointer set by setCanonicalBody on the instance of a
    body; the bodies from a body outwards that the loop at 43-64 passes; the body that
    contains a value. *)
Variable members : nat -> list mem.
Variable direct : nat -> option nat.
Variable chain : nat -> list nat.
Variable home : nat -> option nat.

(** populatePairedBodies, 88-136. *)
Fixpoint pair_mem (l c : mem) (st : caches) : caches :=
  let pair_list := fix pair_list (ls cs : list mem) (st : caches) : caches :=
    match ls, cs with
    | l :: ls', c :: cs' => pair_list ls' cs' (pair_mem l c st)
    | _, _ => st
    end in
  match l, c with
  | MVal v, MVal w => Caches (emplace (vcache st) v w) (bcache st)
  | MInst b ms, MInst b' ms' =>
      let (cb, cms) := match direct b' with Some d => (d, members d) | None => (b', ms') end in
      let st1 := Caches (vcache st) (emplace (bcache st) b cb) in
      if b =? cb then st1 else pair_list ms cms st1
  | MScope k ms, MScope k' ms' => if pkind_eqb k k' then pair_list ms ms' st else st
  | _, _ => st
  end.
Fixpoint pair_list (ls cs : list mem) (st : caches) : caches :=
  match ls, cs with
  | l :: ls', c :: cs' => pair_list ls' cs' (pair_mem l c st)
  | _, _ => st
  end.

(** 40-64: the anchor and its canonical body. *)
Fixpoint find_anchor (bc : cache) (bs : list nat) : option (nat * nat) :=
  match bs with
  | [] => None
  | cur :: r =>
      match bc cur with
      | Some c => Some (cur, c)
      | None => match direct cur with
                | Some d => if d =? cur then find_anchor bc r else Some (cur, d)
                | None => find_anchor bc r
                end
      end
  end.
(** getCanonicalBody, 30-86. *)
Definition getCanonicalBody (st : caches) (b : nat) : caches * nat :=
  match bcache st b with
  | Some c => (st, c)
  | None =>
      let itself st := (Caches (vcache st) (emplace (bcache st) b b), b) in
      match find_anchor (bcache st) (chain b) with
      | None => itself st
      | Some (a, c) =>
          if c =? a then itself st
          else
            let st1 := pair_list (members a) (members c) (Caches (vcache st) (emplace (bcache st) a c)) in
            match bcache st1 b with
            | Some x => (st1, x)
            | None => itself st1
            end
      end
  end.
(** getCanonicalValueSymbol, 8-28. *)
Definition getCanonicalValue (st : caches) (v : nat) : caches * nat :=
  match vcache st v with
  | Some w => (st, w)
  | None =>
      let st1 := match home v with Some b => fst (getCanonicalBody st b) | None => st end in
      match (match home v with Some _ => vcache st1 v | None => None end) with
      | Some w => (st1, w)
      | None => (Caches (emplace (vcache st1) v v) (bcache st1), v)
      end
  end.

Inductive query := QBody (b : nat) | QValue (v : nat).
Definition ask (st : caches) (q : query) : caches * nat :=
  match q with QBody b => getCanonicalBody st b | QValue v => getCanonicalValue st v end.
Fixpoint after (st : caches) (qs : list query) : caches :=
  match qs with [] => st | q :: r => after (fst (ask st q)) r end.
End Canon.
