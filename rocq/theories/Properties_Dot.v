(** C58 and C82: the DOT output. *)
From Coq Require Import Ascii String.
From Verif Require Import Base M_Graph S_Graph P_Graph P_Path M_Range M_Netlist M_Text M_Serial M_Dot S_Dot P_Dot.
Notation length := List.length.

(** ** C58. The output is the text of the statements of the induced subgraph: one per node in
    scope, one per enabled edge between nodes in scope, in graph order, and nothing else. *)
Theorem c58_induced : forall cval ctext (g : nlg cval) f, Mirror (lg g) ->
  (forall n, In n (gnodes (lg g)) -> scope_of f n -> lnode g n <> DNone) ->
  exists out, Induced cval ctext range_toString g f out /\ render cval ctext g f = Some (doc_text print_int out).
Proof. exact c58. Qed.
Print Assumptions c58_induced.
(** SLANG_UNREACHABLE exactly for a node without a kind in scope. *)
Theorem c58_unreachable : forall cval ctext (g : nlg cval) f, render cval ctext g f = None <->
  exists n, In n (gnodes (lg g)) /\ scope_of f n /\ lnode g n = DNone.
Proof. exact c58_none. Qed.
Print Assumptions c58_unreachable.

(** An example: a port driving a register over an enabled and a disabled edge, and a merge
    node. *)
Definition dl : loc := Loc 0 1 1.
Definition dg (port : str) : nlg str :=
  NL [] [] (mk_graph 3 [(0, 1); (0, 1); (2, 1)])
     (fun n => nth n [DPort port port dl DIn (Range 0 3)%Z; DState (lit "q") (lit "t.q") dl (Range 0 3)%Z; DMerge] DNone)
     (fun n => Z.of_nat (S n))
     (fun e => nth e [ED EKNone (Some 0) (Range 0 3)%Z false; ED EKNone (Some 0) (Range 1 1)%Z true] edge0)
     [Sym port port dl].
Definition eol : str := ["010"%char].
Lemma dg_mirror p : Mirror (lg (dg p)).
Proof.
  apply c01 with (thr := outEdgeIndexThreshold), mk_graph_reachable.
Qed.
Example c58_whole : render str (fun s => s) (dg (lit "a")) None = Some
  (lit "digraph {" ++ eol ++ lit "  node [shape=record];" ++ eol ++
   lit "  N1 [label=""In port a""]" ++ eol ++ lit "  N2 [label=""q [3:0]""]" ++ eol ++ lit "  N3 [label=""Merge""]" ++ eol ++
   lit "  N1 -> N2 [label=""a[3:0]""]" ++ eol ++ lit "  N3 -> N2" ++ eol ++ lit "}" ++ eol).
Proof. vm_compute. reflexivity. Qed.
Example c58_scoped : render str (fun s => s) (dg (lit "a")) (Some [1; 2]) = Some
  (lit "digraph {" ++ eol ++ lit "  node [shape=record];" ++ eol ++
   lit "  N2 [label=""q [3:0]""]" ++ eol ++ lit "  N3 [label=""Merge""]" ++ eol ++
   lit "  N3 -> N2" ++ eol ++ lit "}" ++ eol).
Proof. vm_compute. reflexivity. Qed.

(** ** C82. Read as DOT, the text says exactly the statements of the induced subgraph, as
    long as no name or constant has a quote or a backslash. *)
Theorem c82_reads_back_partial : forall cval ctext (g : nlg cval) f, Mirror (lg g) -> (forall n, 0 <= lid g n)%Z ->
  (forall n, In n (gnodes (lg g)) -> lnode g n <> DNone) ->
  (forall n, In n (gnodes (lg g)) -> data_clean ctext (lnode g n)) ->
  (forall s, In s (lsyms g) -> clean (syname s)) ->
  exists t out, render cval ctext g f = Some t /\ Induced cval ctext range_toString g f out /\
    forall out', DocText Numeral t out' <-> out' = out.
Proof. exact c82. Qed.
Print Assumptions c82_reads_back_partial.
Example c82_clean_example : exists t out, render str (fun s => s) (dg (lit "a")) None = Some t /\ length out = 5 /\
  DocText Numeral t out.
Proof.
  destruct (c82_reads_back_partial str (fun s => s) (dg (lit "a")) None (dg_mirror _)) as (t & out & E & In1 & D).
  - intros n. simpl. lia.
  - intros n Hn. cbn in Hn. destruct Hn as [<-|[<-|[<-|[]]]]; discriminate.
  - intros n Hn. cbn in Hn. destruct Hn as [<-|[<-|[<-|[]]]]; cbn; auto; split; intros [F|[]]; discriminate.
  - intros s [<-|[]]. cbn. split; intros [F|[]]; discriminate.
  - exists t, out. split; [exact E|]. split; [|now apply D].
    assert (S : out = [DNode 1 (lit "In port a"); DNode 2 (lit "q [3:0]"); DNode 3 (lit "Merge");
                       DEdge 1 2 (Some (lit "a[3:0]")); DEdge 3 2 None]); [|subst; reflexivity].
    symmetry. apply D. vm_compute in E. injection E as <-.
    change (DocText Numeral (doc_text print_int [DNode 1 (lit "In port a"); DNode 2 (lit "q [3:0]"); DNode 3 (lit "Merge");
                       DEdge 1 2 (Some (lit "a[3:0]")); DEdge 3 2 None]) [DNode 1 (lit "In port a"); DNode 2 (lit "q [3:0]"); DNode 3 (lit "Merge");
                       DEdge 1 2 (Some (lit "a[3:0]")); DEdge 3 2 None]).
    apply doc_text_ok; repeat constructor; simpl; try lia; intros F; repeat (destruct F as [F|F]; [discriminate|]); destruct F.
Qed.

(** Names are not escaped: with a port named by the escaped identifier "\a""b " the output is
    not DOT at all. *)
Theorem c82_reads_back_refuted : ~ (forall cval ctext (g : nlg cval) f, Mirror (lg g) -> (forall n, 0 <= lid g n)%Z ->
  (forall n, In n (gnodes (lg g)) -> lnode g n <> DNone) ->
  exists t out, render cval ctext g f = Some t /\ DocText Numeral t out).
Proof.
  intros H. destruct (H str (fun s => s) (dg (lit "a""b")) None (dg_mirror _)) as (t & out & E & D).
  - intros n. simpl. lia.
  - intros n Hn. cbn in Hn. destruct Hn as [<-|[<-|[<-|[]]]]; discriminate.
  - vm_compute in E. injection E as <-.
    match type of D with DocText _ ?t _ =>
      let r := eval vm_compute in (skipn (length (lit "digraph {" ++ "010"%char :: lit "  node [shape=record];" ++ "010"%char ::
                                 lit "  N1 [label=""In port a""b")) t) in
      apply (broken_label r (lit "In port a") "b"%char); [discriminate| |] end.
    + split; intros F; repeat (destruct F as [F|F]; [discriminate|]); destruct F.
    + exists out. exact D.
Qed.
Print Assumptions c82_reads_back_refuted.
