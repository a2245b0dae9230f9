(** Satisfiability of C104, and a source text for C106. *)
From Coq Require Import Ascii String.
From Verif Require Import Base M_Graph S_Graph S_Reach M_Range M_Netlist S_Netlist M_Text M_Serial M_Query M_Report M_Py S_Query S_Cli S_Py P_Py2 Properties_Py.
Notation length := List.length.
(** Two registers of one clock. *)
Definition one_clock : nlg str :=
  pgraph [DPort (lit "clk") (lit "t.clk") pl DIn (bit 0); DState (lit "q") (lit "t.q") pl (bit 0); DState (lit "r") (lit "t.r") pl (bit 0)]
         [(0, 1); (0, 2)] [ED EKPos None (bit 0) false; ED EKPos None (bit 0) false].
Example c104_nonvacuous : WF (nl_of str one_clock) /\
  clock_domain_map str one_clock = Some [((lit "t.clk", lit "PosEdge"), [lit "t.q"; lit "t.r"])] /\
  (forall r s k r' s' k' q, Clocks (nl_of str one_clock) r s k -> Clocks (nl_of str one_clock) r' s' k' ->
     ClockText str one_clock s q -> ClockText str one_clock s' q -> s = s').
Proof.
  split; [apply pgraph_WF|]. split; [vm_compute; reflexivity|]. intros r s k r' s' k' q C C' _ _.
  assert (Z : forall r s k, Clocks (nl_of str one_clock) r s k -> s = 0).
  { intros x y z (e & I & <- & _). assert (W : WF (nl_of str one_clock)) by apply pgraph_WF. destruct (mir_in _ W _ _ I) as (_ & Ix & _).
    vm_compute in Ix. destruct Ix as [<-|[<-|[<-|[]]]]; vm_compute in I; [destruct I| |]; destruct I as [<-|[]]; reflexivity. }
  rewrite (Z _ _ _ C), (Z _ _ _ C'). reflexivity.
Qed.
(** module child(input [7:0] i); endmodule
    module top(input [3:0] a); logic [7:0] w; assign w[3:0] = a; child u(.i(w)); endmodule
    Symbols: a 10, i 12, w 14.  The node of i is not split: it has an edge for its lower bits,
    none for bits 4 to 7. *)
From Verif Require Import M_Slice M_Port M_DFA M_Builder M_Flow.
Definition half_ports := [FPort 0 10 [(0, 3, true)]; FPort 1 12 [(0, 7, true)]].
Definition half_read s a b : expr bool := ELsp (Path (Some s) a b) (b + 1 - a).
Definition half_conns : list (fconn bool) := [FConn 1 12 8 false (half_read 14 0 7)].
Definition half_asgs : list (fasg bool) := [FAsg (half_read 14 0 3) (half_read 10 0 3)].
Example c106_source :
  match flow false true (fun _ => None) (fun _ => []) half_ports half_conns half_asgs with
  | Some (s, nl) => nth_error (bnodes (fb s)) 1 = Some (1, BPort 1 (zrange 0 7)) /\
      map (fun e => abounds (eatt nl (eid e))) (ins (nst (ng nl) 1)) = [zrange 0 3]
  | None => False
  end.
Proof. vm_compute. split; reflexivity. Qed.
