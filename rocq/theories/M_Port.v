(** Model of source/PortConnectionHandler.cpp: materializePortNodes, collectActualCuts,
    recordCutsFromPortConnections, buildPortSliceList, handlePortConnection,
    drivePortSegment.

    Bit positions are [nat] as in [M_Slice.v]; ranges of the builder are on [Z] as in
    [M_Builder.v].  What slang says about a port and its connection are arguments. *)
From Verif Require Import Base M_Graph M_Range M_Netlist M_Annot M_Interval M_Heap M_Drivers M_Pending M_DFA M_Builder M_Slice.

Definition zrange (lo hi : nat) : range := Range (Z.of_nat lo) (Z.of_nat hi).

(** * materializePortNodes, 110-159 *)
(** The loop at 145-151; [hi] is exclusive, the segments are inclusive. *)
Fixpoint cut_at (prev : nat) (cs : list nat) (hi : nat) : list (nat * nat) :=
  match cs with
  | [] => [(prev, hi - 1)]
  | c :: r => (prev, c - 1) :: cut_at c r hi
  end.
(** The segments of one driver, 136-152; the hints are [None] when there are none or the
    option propCutsAcrossPorts is off. *)
Definition port_segments (h : option (list nat)) (lo hi : nat) : list (nat * nat) :=
  match h with
  | None => [(lo, hi)]
  | Some hs => cut_at lo (lower_until (hi + 1) (upper_from lo hs)) (hi + 1)
  end.
(** 153-158: [port] with internal symbol [sy]; [input]: driver->isInputPort(). *)
Fixpoint make_ports (s : bld) (port sy : nat) (input : bool) (segs : list (nat * nat)) : dres bld :=
  match segs with
  | [] => DOk s
  | (lo, hi) :: r =>
      let '(s1, n) := createPort s port (zrange lo hi) in
      do s2 <- (if input then baddDrivers s1 sy (zrange lo hi) [n] false else DOk s1);
      make_ports s2 port sy input r
  end.
(** The loop over the drivers that AnalysisManager::getDrivers (external) gives: bounds
    and isInputPort.  [internal] is [None] when the internal symbol is missing or not a
    value. *)
Fixpoint make_drivers (h : option (list nat)) (s : bld) (port sy : nat) (drivers : list (nat * nat * bool)) : dres bld :=
  match drivers with
  | [] => DOk s
  | (lo, hi, input) :: r =>
      do s1 <- make_ports s port sy input (port_segments h lo hi);
      make_drivers h s1 port sy r
  end.
Definition materializePortNodes (hints : nat -> option (list nat)) (s : bld) (port : nat) (internal : option nat)
    (drivers : list (nat * nat * bool)) : dres bld :=
  match internal with
  | None => DOk s
  | Some sy => make_drivers (hints sy) s port sy drivers
  end.

Section Conn.
Context {V : Type}.
Variable vzero : V.

(** * collectActualCuts, 23-106 *)
(** One operand of a concatenation, 33-40: the offset and the cuts so far; [total] is the
    base plus the width of the concatenation. *)
Definition concat_step (cuts : nat -> expr V -> list nat) (total : nat) (x : expr V) (st : nat * list nat)
    : nat * list nat :=
  let off := fst st + ew x in
  (off, snd st ++ cuts (fst st) x ++ (if off =? total then [] else [off])).
(** The loop of the replication case, 53-60, from copy [i] on. *)
Fixpoint repl_cuts (cuts : nat -> list nat) (base unit total : nat) (i n : nat) : list nat :=
  match n with
  | 0 => []
  | S m => cuts (base + i * unit) ++
           (if base + (i + 1) * unit =? total then [] else [base + (i + 1) * unit]) ++
           repl_cuts cuts base unit total (i + 1) m
  end.
(** Selects ([ELsp], [EDyn]) take the cuts registered for their root, 76-101; constant
    conversions are not folded here. *)
Definition lsp_cuts (h : hints) (base : nat) (p : path) : list nat :=
  match proot p with
  | None => []
  | Some s =>
      match h s with
      | None => []
      | Some hs => map (fun c => base + (c - plo p)) (lower_until (phi p + 1) (upper_from (plo p) hs))
      end
  end.
Fixpoint actual_cuts (h : hints) (base : nat) (e : expr V) : list nat :=
  match e with
  | EConcat w es =>                                      (* last operand first *)
      snd (fold_right (concat_step (actual_cuts h) (base + w)) (base, []) es)
  | ERepl w (Some n) x =>
      if (n <=? 0)%Z then []
      else repl_cuts (fun b => actual_cuts h b x) base (ew x) (base + w) 0 (Z.to_nat n)
  | ERepl _ None _ => []
  | EConv w _ _ _ _ x =>
      if w =? ew x then actual_cuts h base x
      else if ew x <? w then actual_cuts h base x ++ [base + ew x]
      else []
  | ELsp p _ => lsp_cuts h base p
  | EDyn p _ _ _ => lsp_cuts h base p
  | ECond _ _ _ _ _ _ => []
  | EOther _ _ _ _ => []
  end.

(** recordCutsFromPortConnections, 161-192.  A connection: the internal symbol of the port
    when it is a value, the width of the port, whether port and actual are both integral,
    and the actual (the left side when it is an assignment); no actual when the port is of
    another kind or the expression is missing or bad. *)
Record pconn := Conn { cinternal : option nat; cwidth : nat; cintegral : bool; cactual : option (expr V) }.
Definition hints_of (g : registry) : hints := fun s => option_map (map N.to_nat) (cutsFor g s).
Definition record_one (symw : nat -> N) (g : registry) (x : pconn) : registry :=
  match cactual x, cinternal x with
  | Some e, Some sy =>
      if negb (cintegral x) || negb (cwidth x =? ew e) then g
      else addCuts symw g sy (map N.of_nat (actual_cuts (hints_of g) 0 e))
  | _, _ => g
  end.
Definition recordCuts (symw : nat -> N) (g : registry) (xs : list pconn) : registry :=
  fold_left (record_one symw) xs g.

(** * The bit-aligned connection *)
(** buildPortSliceList, 300-358.  [m]: the entries of the port in the variable tracker, in
    the order of getVariable(port); bounds are those the nodes are registered with. *)
Definition nlo (x : iv nat) : nat := Z.to_nat (ilo x).
Definition nhi (x : iv nat) : nat := Z.to_nat (ihi x) + 1.
Definition port_cuts (m : list (iv nat)) (w : nat) : list nat :=
  uniq (sort (0 :: w :: flat_map (fun x => [nlo x; nhi x]) m)).
Definition port_slice (m : list (iv nat)) (ab : nat * nat) : slice V :=
  Slice (fst ab) (snd ab)
    (flat_map (fun x => if (nlo x <=? fst ab) && (snd ab <=? nhi x) then [SPort (ival x) (fst ab) (snd ab)] else []) m).
Definition buildPortSliceList (m : list (iv nat)) (w : nat) : list (slice V) :=
  if w =? 0 then [] else map (port_slice m) (pairs (port_cuts m w)).

(** What a connection asks of the builder: a driver of a symbol range (mergeDrivers and
    hookupOutputPort), an R-value, a constant source. *)
Inductive pact :=
| PDrive (sy lo hi : nat) (node : nat)
| PRead (sy lo hi : nat) (node : nat)
| PConst (v : list V) (nodes : list nat).

(** ValuePath::visitPaths (external): the paths of an expression. *)
Variable visit : expr V -> list path.

Definition seg_ports (g : segment V) : list nat :=
  flat_map (fun x => match x with SPort n _ _ => [n] | _ => [] end) (lsrcs g).
Definition full_read (p : path) (n : nat) : list pact :=
  match proot p with Some s => [PRead s (plo p) (phi p) n] | None => [] end.
(** One source of drivePortSegment, 377-453; [None]: SLANG_UNREACHABLE. *)
Definition drive_src (output : bool) (g : segment V) (ns : list nat) (x : source V) : option (list pact) :=
  match x with
  | SLsp p lo _ =>
      match proot p with
      | None => Some []
      | Some s =>
          let off := slo g - lo in
          let a := plo p + off in
          let b := plo p + off + (shi g - slo g) - 1 in
          Some (map (fun n => if output then PDrive s a b n else PRead s a b n) ns)
      end
  | SOpq e => Some (flat_map (fun p => flat_map (full_read p) ns) (visit e))
  | SPad _ => Some []
  | SConst v lo _ _ => Some (if output then [] else [PConst (const_slice v lo g) ns])
  | SPort _ _ _ => None
  end.
Fixpoint drive_srcs (output : bool) (g : segment V) (ns : list nat) (xs : list (source V)) : option (list pact) :=
  match xs with
  | [] => Some []
  | x :: r => match drive_src output g ns x, drive_srcs output g ns r with
              | Some a, Some b => Some (a ++ b)
              | _, _ => None
              end
  end.
(** drivePortSegment, 360-455. *)
Definition drivePortSegment (output : bool) (g : segment V) : option (list pact) :=
  match seg_ports g with
  | [] => Some []
  | ns => drive_srcs output g ns (rsrcs g)
  end.
Fixpoint drive_segments (output : bool) (gs : list (segment V)) : option (list pact) :=
  match gs with
  | [] => Some []
  | g :: r => match drivePortSegment output g, drive_segments output r with
              | Some a, Some b => Some (a ++ b)
              | _, _ => None
              end
  end.

(** handlePortConnectionLegacy, 252-298. *)
Definition legacy (m : list (iv nat)) (output : bool) (e : expr V) : list pact :=
  flat_map (fun p =>
    match proot p with
    | None => []
    | Some s => map (fun x => if output then PDrive s (plo p) (phi p) (ival x) else PRead s (plo p) (phi p) (ival x)) m
    end) (visit e).

(** handlePortConnection, 194-250, for a connection with an expression.  [w]: selectable
    width of the port; [integral]: both types are; [output]: the expression was the left
    side of an assignment. *)
Definition handlePortConnection (resolveBits integral output : bool) (m : list (iv nat)) (w : nat) (e : expr V)
    : option (list pact) :=
  if negb resolveBits || negb integral then Some (legacy m output e)
  else
    let pl := buildPortSliceList m w in
    if width pl =? 0 then Some []
    else
      let al := build vzero no_hints e [] in
      if negb (width pl =? width al) then Some (legacy m output e)
      else drive_segments output (alignSegments pl al).

(** What the builder does for one request; a constant source is a new node. *)
Section Apply.
Variable sykind : nat -> skind.
Variable nm : nat -> str.
Variable backrefs : nat -> list nat.
Variable behind : nat -> nat -> list ipath.
Definition apply_act (s : bld) (a : pact) : dres bld :=
  match a with
  | PDrive sy lo hi n =>
      do s1 <- baddDrivers s sy (zrange lo hi) [n] true;
      DOk (bemit s1 (hookupOutputPort nm backrefs (bvt s1) sy (zrange lo hi) [n]))
  | PRead sy lo hi n => DOk (baddRvalue sykind nm behind s sy (zrange lo hi) (Some n))
  | PConst _ ns =>
      DOk (Bld (S (bnext s)) (bnodes s ++ [(bnext s, BConst)]) (bvt s) (bdm s)
               (bdeps s ++ map (DPlain (bnext s)) ns) (bpend s))
  end.
Fixpoint apply_acts (s : bld) (l : list pact) : dres bld :=
  match l with
  | [] => DOk s
  | a :: r => do s1 <- apply_act s a; apply_acts s1 r
  end.
End Apply.
End Conn.
