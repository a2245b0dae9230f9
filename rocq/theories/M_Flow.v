(** Model of the build of a whole netlist for a design made of ports, port connections and
    continuous assignments: NetlistBuilder::handle(InstanceSymbol) and
    handleContinuousAssign (source/NetlistBuilder.cpp 478-529, 549-556), the bit-aligned
    assignment (source/DataFlowAnalysis.cpp 249-349), and the emission of the pending
    R-values (source/BuildPipeline.cpp), put together from the models of the parts.

    The design is external: the ports with the drivers that slang reports for their
    internal symbol, the connections and the assignments, in the order they are visited.
    All port nodes are made first here; in the source the ports of an instance are made
    before its connections are handled, and connections do not create port nodes.
    Registers, procedural blocks, interfaces and aliased ports are left out.  An
    expression read as a whole is walked for its references in order ([M_DFA.v]);
    conditional operators inside such a part would split the state ([M_Expr.v]) and are
    not modelled. *)
From Verif Require Import Base M_Graph M_Range M_Netlist M_Annot M_Interval M_Heap M_Drivers M_Pending M_DFA M_Builder M_Slice M_Port.

(** A port, its internal symbol and its drivers: bounds and isInputPort. *)
Record fport := FPort { fp_id : nat; fp_sy : nat; fp_drivers : list (nat * nat * bool) }.

Section Flow.
Context {V : Type}.
Variable vzero : V.
(** A connection: the port, its internal symbol, its width, whether the actual is the left
    side of an assignment, the actual. *)
Record fconn := FConn { fc_port : nat; fc_sy : nat; fc_w : nat; fc_out : bool; fc_actual : expr V }.
(** A continuous assignment. *)
Record fasg := FAsg { fa_lhs : expr V; fa_rhs : expr V }.

(** ValuePath::visitPaths and the walk of AbstractFlowAnalysis (external): the value paths
    of an expression, the index of a select before its prefix. *)
Fixpoint epaths (e : expr V) : list path :=
  match e with
  | ELsp p _ => [p]
  | EDyn p _ ops _ => flat_map epaths ops ++ [p]
  | EConcat _ es => flat_map epaths es
  | ERepl _ _ x => epaths x
  | EConv _ _ _ _ _ x => epaths x
  | ECond _ _ c l r _ => epaths c ++ epaths l ++ epaths r
  | EOther _ _ ops _ => flat_map epaths ops
  end.
(** noteReference, DataFlowAnalysis.cpp 154-194: a path without a root symbol is not
    noted. *)
Definition refs (e : expr V) : list ref :=
  flat_map (fun p => match proot p with Some s => [(s, zrange (plo p) (phi p))] | None => [] end) (epaths e).

(** driveLhsLspSegment and driveRhsLspSegment, 465-497; [None] as in [M_Slice.v]. *)
Definition note_ref (n : nat * nat * nat) : ref := let '(s, a, b) := n in (s, zrange a b).
Definition rhs_source (g : segment V) (x : source V) : option rsrc :=
  match x with
  | SLsp p lo _ => option_map (fun n => RLsp (note_ref n)) (lsp_note p lo g)
  | SOpq e => Some (ROpaque (refs e))
  | SPad _ => Some RPadding
  | SConst _ _ _ _ => Some RConst
  | SPort _ _ _ => None
  end.
Fixpoint rhs_sources (g : segment V) (xs : list (source V)) : option (list rsrc) :=
  match xs with
  | [] => Some []
  | x :: r => match rhs_source g x, rhs_sources g r with
              | Some a, Some l => Some (a :: l)
              | _, _ => None
              end
  end.
(** One iteration of the loop at 287-343. *)
Definition segment_seg (g : segment V) : option seg :=
  match lhs_notes g (lsrcs g), rhs_sources g (rsrcs g) with
  | Some l, Some r => Some (M_DFA.Seg (map note_ref l) r)
  | _, _ => None
  end.
Fixpoint segment_segs (gs : list (segment V)) : option (list seg) :=
  match gs with
  | [] => Some []
  | g :: r => match segment_seg g, segment_segs r with
              | Some x, Some l => Some (x :: l)
              | _, _ => None
              end
  end.

(** The options resolveAssignBits and propCutsAcrossPorts (no hints when it is off), the
    symbol references. *)
Variable resolveBits : bool.
Variable h : hints.
Variable nm : nat -> str.

(** handle(AssignmentExpression), 249-349, both types integral, as a statement of
    [M_DFA.v]; continuous assignments are blocking. *)
Definition asg_stmt (a : fasg) : option stmt :=
  let legacy := SLegacy 0 true (refs (fa_lhs a)) (refs (fa_rhs a)) in
  if negb resolveBits then Some legacy
  else
    let l := build vzero h (fa_lhs a) [] in
    let r := build vzero h (fa_rhs a) [] in
    if negb (M_Slice.width l =? M_Slice.width r) then Some legacy
    else option_map (SAligned 0 true) (segment_segs (alignSegments l r)).

(** The builder and the nodes that analyses have made. *)
Record fl := FL { fb : bld; fns : list (nat * nk) }.

Variable ports : list fport.
(** getFirstPortBackref and its chain (external): the ports with this internal symbol. *)
Definition port_refs (sy : nat) : list nat := map fp_id (filter (fun p => Nat.eqb (fp_sy p) sy) ports).
Definition variables (sy : nat) : skind := SkVariable.
Definition no_modports (sy n : nat) : list ipath := [].
Definition no_width (sy : nat) : Z := 0%Z.

(** handle(InstanceSymbol), 501-507. *)
Fixpoint make_all_ports (s : bld) (ps : list fport) : dres bld :=
  match ps with
  | [] => DOk s
  | p :: r => do s1 <- materializePortNodes h s (fp_id p) (Some (fp_sy p)) (fp_drivers p); make_all_ports s1 r
  end.
(** 512-517. *)
Definition port_entries (s : bld) (p : nat) : list (iv nat) := match bvt s p with Some m => m | None => [] end.
Definition connect (s : bld) (c : fconn) : dres bld :=
  match handlePortConnection vzero epaths resolveBits true (fc_out c) (port_entries s (fc_port c)) (fc_w c) (fc_actual c) with
  | Some l => apply_acts variables nm port_refs no_modports s l
  | None => DErr EAssert
  end.
Fixpoint connect_all (s : bld) (cs : list fconn) : dres bld :=
  match cs with
  | [] => DOk s
  | c :: r => do s1 <- connect s c; connect_all s1 r
  end.
(** handleContinuousAssign, 549-556. *)
Definition run_asg (s : fl) (a : fasg) : dres fl :=
  match asg_stmt a with
  | None => DErr EAssert
  | Some p =>
      let b := fb s in
      do q <- exec nm (fun _ => false) None (start (bnext b)) p;
      let f := fxs q in
      let b1 := Bld (fnext f) (bnodes b) (bvt b) (bdm b) (bdeps b ++ fdeps f) (bpend b ++ fpend f) in
      let ds := adefs (cur q) in
      do b2 <- mergeDrivers variables nm port_refs no_width no_modports [] b1 (combine (seq 0 (length ds)) ds);
      DOk (FL b2 (fns s ++ fnodes f))
  end.
Fixpoint run_asgs (s : fl) (l : list fasg) : dres fl :=
  match l with
  | [] => DOk s
  | a :: r => do s1 <- run_asg s a; run_asgs s1 r
  end.

Definition bempty : bld := Bld 0 [] vt_empty (fun _ => None) [] [].
(** Phases 1 and 2. *)
Definition flow_state (cs : list fconn) (as_ : list fasg) : dres fl :=
  do b1 <- make_all_ports bempty ports;
  do b2 <- connect_all b1 cs;
  run_asgs (FL b2 []) as_.

(** Nodes as the queries see them; names and locations are left out. *)
Definition node_info (s : fl) (n : nat) : ninfo :=
  let plain_info k b := NInfo n k None b in
  match find (fun x => Nat.eqb (fst x) n) (bnodes (fb s)) with
  | Some (_, BPort _ b) => plain_info KPort (Some b)
  | Some (_, BVariable _ b) => plain_info KVariable (Some b)
  | Some (_, BState _ b) => plain_info KState (Some b)
  | Some (_, BConst) => plain_info KConstant None
  | None =>
      match find (fun x => Nat.eqb (fst x) n) (fns s) with
      | Some (_, M_DFA.KCond _) => plain_info KConditional None
      | Some (_, M_DFA.KCase _) => plain_info M_Netlist.KCase None
      | Some (_, M_DFA.KConst) => plain_info KConstant None
      | Some (_, M_DFA.KMerge) => plain_info M_Netlist.KMerge None
      | _ => plain_info KAssignment None
      end
  end.
Definition empty_netlist (s : fl) : netlist :=
  Netlist (mk_graph (bnext (fb s)) []) (node_info s) (fun _ => default_attr).
(** Phase 4 (resolveSequential); the order of the edges does not matter for what is
    reached. *)
Definition flow (cs : list fconn) (as_ : list fasg) : option (fl * netlist) :=
  match flow_state cs as_ with
  | DErr _ => None
  | DOk s =>
      match emit_all (bvt (fb s)) (bdm (fb s)) (bpend (fb s)) with
      | DErr _ => None
      | DOk ds => option_map (pair s) (drun (empty_netlist s) (bdeps (fb s) ++ ds))
      end
  end.
End Flow.
Arguments FConn {V} _ _ _ _ _.
Arguments FAsg {V} _ _.
Arguments fconn : clear implicits.
Arguments fasg : clear implicits.
