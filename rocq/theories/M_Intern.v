(** Concurrent interning tables: FileTable (include/netlist/TextLocation.hpp 20-63) and
    SymbolTable (include/netlist/SymbolReference.hpp 34-70). Both use the same
    double-checked insertion, modelled once over a record type and its key.

    Simplifications: [concurrent_map] operations (visit, emplace) are single atomic
    steps (their contract); the mutex is a holder; memory is sequentially consistent;
    an address inside a std::deque is the element's position. *)
From Verif Require Import Base M_Netlist.

Section Intern.
Variable Rec : Type.
Variable key : Rec -> str.

(** Program counter of one call.
    [IIdle] before the lock-free visit; [IMiss1] it missed, mutex wanted; [ILock] mutex
    held; [IMiss2] second visit missed; [IStored i] record appended, not yet in the map;
    [IHave i] result known, mutex still held. *)
Inductive ipc := IIdle | IMiss1 | ILock | IMiss2 | IStored (i : nat) | IHave (i : nat).
Record ithread := IThread { ipcof : ipc; itodo : list Rec; irets : list nat }.
(** filenames/entries, indexMap, insertMutex, threads. *)
Record istate := IState { entries : list Rec; imap : list (str * nat);
                          imutex : option nat; ith : nat -> ithread }.

(** indexMap.visit; indexMap.emplace (no effect when the key is present). *)
Fixpoint map_get (m : list (str * nat)) (k : str) : option nat :=
  match m with [] => None | (k', i) :: r => if str_eqb k' k then Some i else map_get r k end.
Definition map_emplace (m : list (str * nat)) (k : str) (i : nat) : list (str * nat) :=
  match map_get m k with Some _ => m | None => m ++ [(k, i)] end.

Definition igo (s : istate) (t : nat) (p : ipc) : istate :=
  IState (entries s) (imap s) (imutex s)
    (upd (ith s) t (IThread p (itodo (ith s t)) (irets (ith s t)))).
Definition iret (s : istate) (t : nat) (m : option nat) (i : nat) : istate :=
  IState (entries s) (imap s) m
    (upd (ith s) t (IThread IIdle (tl (itodo (ith s t))) (irets (ith s t) ++ [i]))).

(** addFile, TextLocation.hpp 32-45; intern, SymbolReference.hpp 44-61. [None]: finished
    or blocked. *)
Definition istep (t : nat) (s : istate) : option istate :=
  match itodo (ith s t) with
  | [] => None
  | r :: _ =>
    match ipcof (ith s t) with
    | IIdle => match map_get (imap s) (key r) with
               | Some i => Some (iret s t (imutex s) i)
               | None => Some (igo s t IMiss1)
               end
    | IMiss1 => match imutex s with
                | Some _ => None
                | None => Some (igo (IState (entries s) (imap s) (Some t) (ith s)) t ILock)
                end
    | ILock => match map_get (imap s) (key r) with
               | Some i => Some (igo s t (IHave i))
               | None => Some (igo s t IMiss2)
               end
    | IMiss2 => Some (igo (IState (entries s ++ [r]) (imap s) (imutex s) (ith s)) t
                          (IStored (length (entries s))))
    | IStored i => Some (igo (IState (entries s) (map_emplace (imap s) (key r) i)
                                     (imutex s) (ith s)) t (IHave i))
    | IHave i => Some (iret s t None i)
    end
  end.

Definition iinit (progs : list (list Rec)) : istate :=
  IState [] [] None (fun t => IThread IIdle (nth t progs []) []).
Fixpoint iexec (sched : list nat) (s : istate) : option istate :=
  match sched with
  | [] => Some s
  | t :: r => match istep t s with Some s' => iexec r s' | None => None end
  end.
End Intern.
Arguments IThread {Rec}. Arguments ipcof {Rec}. Arguments itodo {Rec}. Arguments irets {Rec}.
Arguments IState {Rec}. Arguments entries {Rec}. Arguments imap {Rec}.
Arguments imutex {Rec}. Arguments ith {Rec}.
Arguments igo {Rec}. Arguments iret {Rec}. Arguments istep {Rec}. Arguments iinit {Rec}.
Arguments iexec {Rec}.

(** FileTable::NoFile and getFilename, TextLocation.hpp 28, 54-59. Indices are uint32_t;
    [None]: std::deque::at throws. *)
Definition NoFile : Z := 4294967295.
Definition toIndex (i : nat) : Z := Z.of_nat i mod 4294967296.
Definition getFilename (files : list str) (i : Z) : option str :=
  if Z.eqb i NoFile then Some [] else nth_error files (Z.to_nat i).
(** SymbolReference, SymbolReference.hpp 16-28: name, hierarchicalPath, location (file
    index, line, column); keyed by the path. *)
Record symref := SymRef { sr_name : str; sr_path : str; sr_loc : Z * nat * nat }.
