(** Properties C125 and C126: assignment targets with a variable index, and force
    statements. *)
From Coq Require Import String.
From Verif Require Import Base M_Graph M_Range M_Netlist M_Annot M_Interval M_Heap M_Drivers M_Pending M_DFA M_Slice M_Port M_Flow M_Proc M_Lhs
  S_Slice S_DFA S_Flow S_Lhs P_Slice P_Slice2 P_Slice3 P_Flow3 P_Lhs.
Notation length := List.length.

(** * C125: an assignment drives every bit it may write, and depends on the index that
    decides which.

    Symbols: 0 is x (four bits), 1 is i (two bits), 2 is a (one bit). *)
Definition bnat (l : list bool) : nat := fold_right (fun (b : bool) n => (if b then 1 else 0) + 2 * n) 0 l.
Definition xvar : path := Path (Some 0) 0 3.
Definition ivar : expr bool := ELsp (Path (Some 1) 0 1) 2.
Definition abit : expr bool := ELsp (Path (Some 2) 0 0) 1.
Definition xi : target bool := TVar xvar 1 ivar (fun v => Nat.min 3 (bnat v)).   (* x[i] *)
Definition at1 : env bool := fun s k => match s, k with 1, 0 => true | _, _ => false end.   (* i = 1 *)
Definition at0 : env bool := fun _ _ => false.

Lemma xi_ok : well_formed xi /\ indices_ok xi.
Proof.
  split.
  - split; [discriminate|]. split; [lia|]. intros x. change (Nat.min 3 (bnat x) + 1 <= 4). lia.
  - cbn. lia.
Qed.

(** False with resolved bits, the default: x[i] = a drives x[0] only, whatever i is. *)
Theorem c125_drives_refuted :
  ~ (forall h (t : target bool) rhs v ns, well_formed t -> typed (fun _ _ => False) rhs -> ew rhs = tw t ->
       assign false h false false (texpr t) rhs = ANodes ns ->
       forall s i, In (s, i) (lands false v t) -> exists n, In n ns /\ noted (ln n) s i).
Proof.
  intros H. specialize (H no_hints xi abit at1 [SegNode [(0,0,0)] [(2,0,0)] [] []]).
  destruct (H (proj1 xi_ok)) with (s := 0) (i := 1) as (n & [<-|[]] & lo & hi & [E|[]] & L).
  - cbn. repeat split; try discriminate; lia.
  - reflexivity.
  - reflexivity.
  - vm_compute. auto.
  - inversion E; subst. lia.
Qed.
Print Assumptions c125_drives_refuted.

(** and nothing records that i decides where the bit goes: the reads are those of a. *)
Theorem c125_index_refuted :
  ~ (forall h (t : target bool) rhs v1 v2 ns, well_formed t -> typed (fun _ _ => False) rhs -> ew rhs = tw t ->
       assign false h false false (texpr t) rhs = ANodes ns ->
       (forall n s i, In n ns -> noted (rn n) s i -> v1 s i = v2 s i) ->
       (forall n e s i, In n ns -> In e (ropq n) -> In (s, i) (S_Slice.reads e) -> v1 s i = v2 s i) ->
       lands false v1 t = lands false v2 t).
Proof.
  intros H. specialize (H no_hints xi abit at1 at0 [SegNode [(0,0,0)] [(2,0,0)] [] []]).
  enough (lands false at1 xi = lands false at0 xi) as E by (vm_compute in E; discriminate).
  apply H.
  - apply xi_ok.
  - cbn. repeat split; try discriminate; lia.
  - reflexivity.
  - reflexivity.
  - intros n s i [<-|[]] (lo & hi & [E|[]] & L). inversion E; subst. reflexivity.
  - intros n e s i [<-|[]] [].
Qed.
Print Assumptions c125_index_refuted.

(** What holds: for a target without variable index the bits driven are exactly the bits
    written. *)
Theorem c125_constant_partial : forall V (vz : V) h (t : target V) rhs, sorted_hints h ->
  constant_target t -> well_formed t -> typed (fun _ _ => False) rhs -> ew rhs = tw t ->
  exists ns, assign vz h false false (texpr t) rhs = ANodes ns /\
    forall v s i, (exists n, In n ns /\ noted (ln n) s i) <-> In (s, i) (lands vz v t).
Proof. exact constant_driven. Qed.
Print Assumptions c125_constant_partial.

(** On the whole-expression path, taken without resolved bits, a non-blocking assignment
    drives every bit it may write, for all values of the index, and the index and the
    right-hand side are read by its node.  The block has no definitions before it. *)
Theorem c125_legacy_partial : forall V (vz : V) nm automatic external s l (t : target V) rhs,
  (forall x, automatic x = false) -> adefs (cur s) = [] -> areach (cur s) = true ->
  well_formed t -> indices_ok t -> paths_ok rhs ->
  exists s', handle_assign vz nm automatic external false no_hints false false s l false (texpr t) rhs = DOk s' /\
    In (fnext (fxs s), KAssign l) (fnodes (fxs s')) /\
    (forall v sy i, In (sy, i) (lands vz v t) ->
       exists b, In (sy, b, fnext (fxs s)) (flv (fxs s')) /\ bit b (Z.of_nat i)) /\
    (forall sy i, In (sy, i) (index_reads t) \/ In (sy, i) (S_Slice.reads rhs) ->
       exists x, In x (fpend (fxs s')) /\ psym x = sy /\ pnode x = Some (fnext (fxs s)) /\ bit (pbounds x) (Z.of_nat i)).
Proof. intros V vz nm automatic external s l t rhs A D R W I P. exact (legacy_target vz nm automatic external s l t rhs A D R W I P). Qed.
Print Assumptions c125_legacy_partial.
(** The index reads are all that decides where the bits go. *)
Theorem c125_index_decides : forall V (vz : V) v1 v2 (t : target V),
  agree v1 v2 (index_reads t) -> lands vz v1 t = lands vz v2 t.
Proof. intros V vz v1 v2 t. apply index_decides. Qed.
Print Assumptions c125_index_decides.
(** For plain assignments this is the analysis of the other theorems. *)
Theorem c125_plain_assignment : forall V (vz : V) nm automatic external resolve h s bl (lhs rhs : expr V) q, lvalue lhs ->
  pasg_stmt vz resolve h bl lhs rhs = Some q ->
  handle_assign vz nm automatic external resolve h false false s 0 bl lhs rhs = exec nm automatic external s q.
Proof. intros V vz nm automatic external resolve h s bl lhs rhs q L. now apply plain_assign. Qed.
Print Assumptions c125_plain_assignment.

Definition nm1 (n : nat) : str := match n with 0 => lit "x" | 1 => lit "i" | _ => lit "a" end.
Definition stat (n : nat) : bool := false.
(** x[i] <= a in the two modes. *)
Example c125_ex : exists s s',
  handle_assign false nm1 stat None false no_hints false false (start 5) 0 false (texpr xi) abit = DOk s /\
  flv (fxs s) = [(0, zrange 0 3, 5)] /\
  fpend (fxs s) = [Pend 1 (lit "i") (zrange 0 1) (Some 5) EKNone; Pend 2 (lit "a") (zrange 0 0) (Some 5) EKNone] /\
  handle_assign false nm1 stat None true no_hints false false (start 5) 0 false (texpr xi) abit = DOk s' /\
  flv (fxs s') = [(0, zrange 0 0, 5)] /\
  fpend (fxs s') = [Pend 2 (lit "a") (zrange 0 0) (Some 5) EKNone].
Proof. do 2 eexists. vm_compute. repeat split. Qed.
Example c125_lands : lands false at1 xi = [(0, 1)] /\ lands false at0 (TCat [xi; TSel (Path (Some 2) 0 0) 1]) = [(2, 0); (0, 0)].
Proof. vm_compute. auto. Qed.
Example c125_constant_ex :
  assign false no_hints false false (texpr (TCat [TSel (Path (Some 0) 1 1) 1; TSel (Path (Some 2) 0 0) 1])) ivar =
    ANodes [SegNode [(2,0,0)] [(1,0,0)] [] []; SegNode [(0,1,1)] [(1,1,1)] [] []].
Proof. reflexivity. Qed.

(** * C126: a force statement drives nothing, and its only dependencies are those of its
    right-hand side. *)
(** It drives nothing: no definition and no non-blocking write is recorded. *)
Theorem c126_drives_nothing_partial : forall V (vz : V) nm automatic external resolve h s l (lhs rhs : expr V) s',
  handle_proc_assign vz nm automatic external resolve h true s l lhs rhs = DOk s' ->
  adefs (cur s') = adefs (cur s) /\ flv (fxs s') = flv (fxs s).
Proof. intros V vz nm automatic external resolve h s l lhs rhs s' E. exact (force_still vz nm automatic external resolve h false s l true lhs rhs s' E). Qed.
Print Assumptions c126_drives_nothing_partial.
(** With resolved bits it reads what the same assignment would read. *)
Theorem c126_reads_right_partial : forall V (vz : V) h (lhs rhs : expr V) ns,
  assign vz h false false lhs rhs = ANodes ns ->
  assign vz h true false lhs rhs = ANodes (map (fun n => SegNode [] (rn n) (ropq n) (rconst n)) ns).
Proof. exact force_assign. Qed.
Print Assumptions c126_reads_right_partial.
(** False on the whole-expression path: force x = a makes the node read x. *)
Theorem c126_only_right_refuted :
  ~ (forall nm automatic external resolve h s l (lhs rhs : expr bool) s',
       lvalue lhs -> typed (fun _ _ => False) lhs -> typed (fun _ _ => False) rhs -> ew lhs = ew rhs ->
       handle_proc_assign false nm automatic external resolve h true s l lhs rhs = DOk s' ->
       forall x, In x (fpend (fxs s')) -> In x (fpend (fxs s)) \/
         forall i, bit (pbounds x) (Z.of_nat i) -> In (psym x, i) (S_Slice.reads rhs)).
Proof.
  intros H. destruct (H nm1 stat None false no_hints (start 5) 0 (ELsp (Path (Some 0) 0 0) 1) abit
    (ST (AS [] (Some 5) None true) (FX 6 [(5, KAssign 0)] []
       [Pend 0 (lit "x") (zrange 0 0) (Some 5) EKNone; Pend 2 (lit "a") (zrange 0 0) (Some 5) EKNone] []))) 
    with (x := Pend 0 (lit "x") (zrange 0 0) (Some 5) EKNone) as [[]|E].
  - exact I.
  - cbn. repeat split; try discriminate; lia.
  - cbn. repeat split; try discriminate; lia.
  - reflexivity.
  - reflexivity.
  - now left.
  - destruct (E 0) as [Q|[]]; [vm_compute; intuition discriminate|]. discriminate.
Qed.
Print Assumptions c126_only_right_refuted.
(** The two modes on force x = a, and the same with assign. *)
Example c126_ex : exists s s' s'',
  handle_proc_assign false nm1 stat None true no_hints true (start 5) 0 (ELsp (Path (Some 0) 0 0) 1) abit = DOk s /\
  fpend (fxs s) = [Pend 2 (lit "a") (zrange 0 0) (Some 5) EKNone] /\ adefs (cur s) = [] /\
  handle_proc_assign false nm1 stat None false no_hints true (start 5) 0 (ELsp (Path (Some 0) 0 0) 1) abit = DOk s' /\
  map psym (fpend (fxs s')) = [0; 2] /\ adefs (cur s') = [] /\
  handle_proc_assign false nm1 stat None true no_hints false (start 5) 0 (ELsp (Path (Some 0) 0 0) 1) abit = DOk s'' /\
  getDrivers (defs (cur s'') 0) (zrange 0 0) = DOk [5].
Proof. do 3 eexists. vm_compute. repeat split. Qed.
