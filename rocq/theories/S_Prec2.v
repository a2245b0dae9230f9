(** What the nodes of the netlist of a design with procedural blocks stand for, and when
    one of them may feed another: [S_Prec.v] with blocks and registers.  A block counts as
    one piece.  Nothing here mentions nodes being built or driver maps. *)
From Verif Require Import Base M_Graph M_Range M_Netlist M_DFA M_Builder M_Slice M_Port M_Flow M_Proc
  S_Annot S_Pending S_Netlist S_DFA S_Slice S_Flow S_Proc S_Prec.

Section Spec.
Context {V : Type}.
Variable vzero : V.
Variable resolveBits : bool.
Variable h : hints.
Variable width : nat -> Z.
Variable ports : list fport.
Variable conns : list (fconn V).
Variable asgs : list (fasg V).
Variable procs : list (fproc V).

(** The bits that the text of a block reads: right-hand sides, conditions, selectors and
    the expressions of case items. *)
Fixpoint breads (p : pst V) (s i : nat) : Prop :=
  match p with
  | PSkip => False
  | PAsg _ _ r => In (s, i) (reads r)
  | PSeq p q => breads p s i \/ breads q s i
  | PIf c t => In (s, i) (reads c) \/ breads t s i
  | PIfElse c t e => In (s, i) (reads c) \/ breads t s i \/ breads e s i
  | PCase c items => In (s, i) (reads c) \/ cbreads items s i
  end
with cbreads (x : pcl V) (s i : nat) : Prop :=
  match x with
  | PDefault p => breads p s i
  | PItem xs p r => (exists y, In y xs /\ In (s, i) (reads y)) \/ breads p s i \/ cbreads r s i
  end.

(** A port, assignment or constant; a block; bits [lo..hi] of a register of a block. *)
Inductive piece := Plain (x : item V) | Block (x : fproc V) | Register (x : fproc V) (s lo hi : nat).

Definition piece_writes (x : piece) (s i : nat) : Prop :=
  match x with
  | Plain x => item_writes resolveBits conns x s i
  | Block x => pr_sens x = [] /\ may (pr_body x) s i
  | Register x t lo hi => s = t /\ lo <= i <= hi
  end.
(** A register reads the clocks of its block. *)
Definition piece_reads (x : piece) (s i : nat) : Prop :=
  match x with
  | Plain x => item_reads vzero resolveBits conns x s i
  | Block x => breads (pr_body x) s i
  | Register x _ _ _ => In s (map fst (pr_sens x)) /\ (Z.of_nat i < width s)%Z
  end.
(** [x] writes a bit that [y] reads, or is a constant of [y], or the two belong to the same
    block. *)
Definition PFeeds (x y : piece) : Prop :=
  (exists s i, piece_writes x s i /\ piece_reads y s i) \/
  (exists z, x = Plain XConst /\ y = Plain z /\ item_constant vzero resolveBits conns z) \/
  (exists b, x = Block b /\ y = Block b) \/
  (exists b s lo hi, x = Block b /\ y = Register b s lo hi).
Definition valid_piece (x : piece) : Prop :=
  match x with
  | Plain x => valid_item vzero resolveBits ports asgs x
  | Block x => In x procs
  | Register x s lo hi => In x procs /\ pr_sens x <> [] /\ lo <= hi /\ forall i, lo <= i <= hi -> may (pr_body x) s i
  end.

(** The contracts of a continuous assignment ([wf_design]) for the assignments of a block,
    blocking or not. *)
Definition basg_ok (l r : expr V) : Prop :=
  (lvalue l /\ typed (fun _ _ => False) l /\ NoDup (lbits l) /\ in_driver ports l /\ (resolveBits = false -> uncut h l)) /\
  readable vzero resolveBits ports r /\ walkable vzero resolveBits r /\ ew l = ew r.
Fixpoint bstmt_ok (p : pst V) : Prop :=
  match p with
  | PSkip => True
  | PAsg _ l r => basg_ok l r
  | PSeq p q => bstmt_ok p /\ bstmt_ok q
  | PIf c t => cond_ok ports c /\ bstmt_ok t
  | PIfElse c t e => cond_ok ports c /\ bstmt_ok t /\ bstmt_ok e
  | PCase c items => cond_ok ports c /\ bitems_ok items
  end
with bitems_ok (x : pcl V) : Prop :=
  match x with
  | PDefault p => bstmt_ok p
  | PItem xs p r => (forall y, In y xs -> cond_ok ports y) /\ bstmt_ok p /\ bitems_ok r
  end.
(** A block may have latches, blocking and non-blocking assignments, and read what it
    writes; two ranges that it writes are equal or apart, and they and its clocks are no
    ports. *)
Record block_shape (x : fproc V) : Prop := {
  bk_ok : bstmt_ok (pr_body x);
  bk_aligned : forall p, proc_stmt vzero resolveBits h (pr_body x) = Some p -> aligned_writes (all_writes p ++ nb_writes (fun _ => false) p);
  bk_names : forall s i p, may (pr_body x) s i -> In p ports -> s <> fp_id p;
  bk_clocks : forall s p, In s (map fst (pr_sens x)) -> In p ports -> s <> fp_id p }.
(** Every bit has one driver. *)
Record blocks_apart : Prop := {
  ba_nodup : NoDup procs;
  ba_shape : forall x, In x procs -> block_shape x;
  ba_driven : forall x s i, In x procs -> may (pr_body x) s i -> ~ In (s, i) (all_driven ports conns asgs);
  ba_one : forall x y s i, In x procs -> In y procs -> may (pr_body x) s i -> may (pr_body y) s i -> x = y }.

(** A way from [x] to a piece that leaves no register. *)
Inductive PConnected (x : piece) : piece -> Prop :=
| pc_here : PConnected x x
| pc_step y z : PFeeds x y -> valid_piece y -> (forall b s lo hi, x <> Register b s lo hi) -> PConnected y z -> PConnected x z.

(** [role] says what each node stands for; the state nodes are the registers, and every edge
    that is not cut goes from a piece to one that it feeds. *)
Record pieces (nodes : list (nat * bnode)) (nl : netlist) (role : nat -> piece) : Prop := {
  pi_valid : forall n, hasNode (ng nl) n = true -> valid_piece (role n);
  pi_port : forall n p lo hi, In p ports -> (hasNode (ng nl) n = true /\ role n = Plain (XPort p lo hi) <-> In (n, BPort (fp_id p) (zrange lo hi)) nodes);
  pi_state : forall n, hasNode (ng nl) n = true -> (nkind (ninf nl n) = KState <-> exists x s lo hi, role n = Register x s lo hi);
  pi_conn : forall a b, Conn nl a b -> hasNode (ng nl) a = true /\ hasNode (ng nl) b = true /\ PFeeds (role a) (role b) }.
End Spec.
Arguments piece : clear implicits.
