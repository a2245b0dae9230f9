(** Model of the collecting traversal of source/NetlistBuilder.cpp (425-522, 524-538,
    560-564): which ports, variables, blocks and connections of an instance tree are
    handled, in which order, and what the builder makes of them.

    The AST is external: [sym] keeps what the handlers look at.  Numbers identify
    instances, symbols and blocks. *)
From Verif Require Import Base M_Graph M_Range M_Netlist M_Text M_Annot M_Interval M_Heap M_Drivers M_Pending M_DFA M_Builder M_Slice M_Port.

Section Inst.
Context {V : Type}.
Notation pconn := (@pconn V).

(** A port connection by the kind of the port, 511-521: [CnPort port output c], an interface
    port, or any other kind (a multi-port). *)
Inductive iconn := CnPort (port : nat) (output : bool) (c : pconn) | CnIface | CnOther.

Inductive sym :=
| YPort (port : nat) (internal : option nat) (drivers : list (nat * nat * bool))
| YVar (sy : nat) (iface : bool) (drivers : list (nat * nat))
    (* [iface]: the containing instance is an interface *)
| YBlock (id : nat) (procedural : bool)
| YGen (uninst : bool) (ms : list sym)
| YScope (ms : list sym)                   (* other scopes: visited by default *)
| YOther
| YInst (i : nat) (path def : str) (uninst : bool) (ms : list sym) (cs : list iconn).

(** What the traversal does, with the instance it does it for. *)
Inductive iev :=
| VCuts (i : nat) (cs : list pconn)
| VBox (i : nat) (path : str)
| VPort (i port : nat) (internal : option nat) (drivers : list (nat * nat * bool))
| VVar (i sy : nat) (drivers : list (nat * nat))
| VDefer (i id : nat) (procedural : bool)
| VConn (i port : nat) (output : bool) (c : pconn).

(** The loops at 464-474; [None] is fuel of the matcher, which C23 excludes. *)
Fixpoint any_match (pats : list str) (text : str) : option bool :=
  match pats with
  | [] => Some false
  | p :: r => match wildcardMatch text p with
              | Some true => Some true
              | Some false => any_match r text
              | None => None
              end
  end.
(** isBlackBoxInstance, 458-476. *)
Definition isBlackBoxInstance (pats : list str) (path def : str) : option bool :=
  match pats with
  | [] => Some false
  | _ => match any_match pats def with
         | Some false => any_match pats path
         | r => r
         end
  end.

(** One after the other; [None] (SLANG_UNREACHABLE) stops. *)
Fixpoint seqo {A} (l : list (option (list A))) : option (list A) :=
  match l with
  | [] => Some []
  | x :: r => match x, seqo r with Some a, Some b => Some (a ++ b) | _, _ => None end
  end.

(** 503-507: only the ports among the members. *)
Definition box_ports (i : nat) (ms : list sym) : list iev :=
  flat_map (fun m => match m with YPort p int ds => [VPort i p int ds] | _ => [] end) ms.
(** 511-521. *)
Definition connect (i : nat) (c : iconn) : option (list iev) :=
  match c with CnPort p o x => Some [VConn i p o x] | CnIface => Some [] | CnOther => None end.
(** The connections recordCutsFromPortConnections looks at. *)
Definition port_conns (cs : list iconn) : list pconn :=
  flat_map (fun c => match c with CnPort _ _ x => [x] | _ => [] end) cs.

Variable pats : list str.
Variable propCuts : bool.

(** The handlers: PortSymbol 425-428, VariableSymbol 430-456, InstanceSymbol 478-522,
    ProceduralBlockSymbol and ContinuousAssignSymbol 524-536, GenerateBlockSymbol
    560-564; other scopes are visited by ASTVisitor. *)
Fixpoint handle (own : nat) (y : sym) : option (list iev) :=
  match y with
  | YPort p int ds => Some [VPort own p int ds]
  | YVar s iface ds => Some (if iface then [VVar own s ds] else [])
  | YBlock id proc => Some [VDefer own id proc]
  | YGen uninst ms => if uninst then Some [] else seqo (map (handle own) ms)
  | YScope ms => seqo (map (handle own) ms)
  | YOther => Some []
  | YInst i path def uninst ms cs =>
      if uninst then Some []
      else
        match isBlackBoxInstance pats path def with
        | None => None
        | Some bb =>
            seqo (Some (if propCuts then [VCuts i (port_conns cs)] else []) ::
                  (if bb then Some (VBox i path :: box_ports i ms) else seqo (map (handle i) ms)) ::
                  map (connect i) cs)
        end
  end.
Definition traverse (own : nat) (tops : list sym) : option (list iev) := seqo (map (handle own) tops).

(** * Effect *)
Variable vzero : V.
Variable visit : expr V -> list path.
Variable sykind : nat -> skind.
Variable nm : nat -> str.
Variable backrefs : nat -> list nat.
Variable behind : nat -> nat -> list ipath.
Variable symw : nat -> N.
Variable resolveBits : bool.

Record ist := ISt { ibld : bld; ireg : registry; ibox : list str; idefer : list (nat * bool) }.

(** createVariable for each driver, 444-452. *)
Definition make_vars (s : bld) (sy : nat) (drivers : list (nat * nat)) : bld :=
  fold_left (fun s b => fst (createVariable s sy (zrange (fst b) (snd b)))) drivers s.
(** The node entries of a port, getVariable(port). *)
Definition port_entries (s : bld) (port : nat) : list (iv nat) :=
  match bvt s port with Some m => m | None => [] end.

(** The hints of a port node are used only under the option, PortConnectionHandler.cpp
    123-127. *)
Definition port_hints (g : registry) : nat -> option (list nat) :=
  if propCuts then hints_of g else fun _ => None.

Definition run_ev (t : ist) (e : iev) : dres ist :=
  match e with
  | VCuts _ cs => DOk (ISt (ibld t) (recordCuts symw (ireg t) cs) (ibox t) (idefer t))
  | VBox _ path => DOk (ISt (ibld t) (ireg t) (ibox t ++ [path]) (idefer t))
  | VPort _ p int ds =>
      do s <- materializePortNodes (port_hints (ireg t)) (ibld t) p int ds;
      DOk (ISt s (ireg t) (ibox t) (idefer t))
  | VVar _ sy ds => DOk (ISt (make_vars (ibld t) sy ds) (ireg t) (ibox t) (idefer t))
  | VDefer _ id proc => DOk (ISt (ibld t) (ireg t) (ibox t) (idefer t ++ [(id, proc)]))
  | VConn _ p o c =>
      match cactual c with
      | None => DOk t
      | Some e =>
          match handlePortConnection vzero visit resolveBits (cintegral c) o (port_entries (ibld t) p) (cwidth c) e with
          | None => DErr EAssert
          | Some l =>
              do s <- apply_acts sykind nm backrefs behind (ibld t) l;
              DOk (ISt s (ireg t) (ibox t) (idefer t))
          end
      end
  end.
Fixpoint run_evs (t : ist) (l : list iev) : dres ist :=
  match l with
  | [] => DOk t
  | e :: r => do t1 <- run_ev t e; run_evs t1 r
  end.
End Inst.
