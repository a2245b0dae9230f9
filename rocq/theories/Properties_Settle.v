(** C128: a design for which no combinational loop is reported settles, whatever its
    inputs and its state; as a machine it has one run for each sequence of inputs. *)
From Verif Require Import Base M_Graph M_Range M_Netlist M_DFS M_Path M_Cycle M_Annot M_Interval M_Heap M_Drivers M_Pending M_DFA M_Builder M_Slice M_Port M_Flow M_Proc
  S_Graph S_Reach S_Netlist S_DFA S_Slice S_Port S_Flow S_Proc S_Seq S_Par S_Settle P_Slice2 P_Flow5 P_Flow6 P_Flow8 P_Proc3 P_Seq3 P_Par P_Settle
  Properties_Path Properties_Flow Properties_Proc Properties_Seq Properties_Sync Properties_Par.

Lemma sg_all {V} ports conns asgs procs regs (v w u : nat -> nat -> V) : same_givens ports conns asgs procs regs v u -> same_givens ports conns asgs procs regs w u -> same_givens ports conns asgs procs regs v w.
Proof.
  intros [A B C] [A' B' C']. split.
  - intros p i F. now rewrite (A p i F), (A' p i F).
  - intros t i R. now rewrite (B t i R), (B' t i R).
  - intros t i N N'. now rewrite (C t i N N'), (C' t i N N').
Qed.

(** The function that computes the settled values. *)
Lemma settle_fun : forall {V} (vz : V) istrue hits rb h nm ports width conns asgs procs regs, wf_clocked vz rb h ports conns asgs procs regs ->
  driven_once vz ports conns asgs procs ->
  forall s nl, pflow vz rb h nm ports width conns asgs (procs ++ regs) = Some (s, nl) -> getAllLoops nl = Some [] ->
  exists f : (nat -> nat -> V) -> (nat -> nat -> V), forall v0, psettled vz istrue hits conns asgs procs (f v0) /\ same_givens ports conns asgs procs regs (f v0) v0.
Proof.
  intros V vz istrue hits rb h nm ports width conns asgs procs regs (W & Cb & Wr) Do s nl E NL.
  pose proof (pflow_wf _ _ _ _ _ _ _ _ _ _ _ E) as Wf. destruct (c15_loops_complete nl Wf) as (ls & El & [Hl _] & _). rewrite NL in El. injection El as <-. specialize (Hl eq_refl).
  set (cone := gnodes (ng nl) ++ seq 0 (bnext (fb s))).
  exists (fun v0 => iter vz istrue hits conns asgs procs v0 (2 * length cone + 1)). intros v0. split.
  - apply (iter_settled vz istrue hits rb h nm ports width conns asgs procs regs W Cb Wr Do (procs ++ regs) s nl cone (Permutation.Permutation_refl _) E).
    + intros m m' _ [(e & Ie & _ & _) _]. apply in_or_app. left. apply (mir_out _ Wf) in Ie. apply Ie.
    + intros m _ Q. apply Hl. exists m. now apply back_cycle.
    + intros n L. apply in_or_app. right. apply in_seq. lia.
  - eapply iter_givens; eauto.
Qed.

(** For all inputs, states and values of what nothing drives there is one valuation in
    which every assignment, connection and combinational block holds. *)
Theorem c128_settles : forall {V} (vz : V) istrue hits rb h nm ports width conns asgs procs regs, wf_clocked vz rb h ports conns asgs procs regs ->
  driven_once vz ports conns asgs procs ->
  forall s nl, pflow vz rb h nm ports width conns asgs (procs ++ regs) = Some (s, nl) -> getAllLoops nl = Some [] ->
  forall v0, exists v, psettled vz istrue hits conns asgs procs v /\ same_givens ports conns asgs procs regs v v0 /\
    forall w, psettled vz istrue hits conns asgs procs w -> same_givens ports conns asgs procs regs w v0 -> forall t i, w t i = v t i.
Proof.
  intros V vz istrue hits rb h nm ports width conns asgs procs regs W Do s nl E NL v0.
  destruct (settle_fun vz istrue hits rb h nm ports width conns asgs procs regs W Do s nl E NL) as (f & F). destruct (F v0) as [S1 G1]. exists (f v0). split; [exact S1|]. split; [exact G1|].
  intros w S2 G2. destruct (sg_all _ _ _ _ _ _ _ _ G2 G1) as [A B C]. exact (c124_values_determined vz istrue hits rb h nm ports width conns asgs procs regs W s nl E NL w (f v0) S2 S1 A B C).
Qed.
Print Assumptions c128_settles.

(** So a design that does not settle for some input and state, or that can settle in two
    ways, has a loop and it is reported. *)
Theorem c128_unstable_reported : forall {V} (vz : V) istrue hits rb h nm ports width conns asgs procs regs, wf_clocked vz rb h ports conns asgs procs regs ->
  driven_once vz ports conns asgs procs ->
  forall s nl, pflow vz rb h nm ports width conns asgs (procs ++ regs) = Some (s, nl) ->
  forall v0, (forall v, same_givens ports conns asgs procs regs v v0 -> ~ psettled vz istrue hits conns asgs procs v) \/
    (exists v w t i, psettled vz istrue hits conns asgs procs v /\ psettled vz istrue hits conns asgs procs w /\
       same_givens ports conns asgs procs regs v v0 /\ same_givens ports conns asgs procs regs w v0 /\ v t i <> w t i) ->
  exists ls, getAllLoops nl = Some ls /\ ls <> [].
Proof.
  intros V vz istrue hits rb h nm ports width conns asgs procs regs W Do s nl E v0 U.
  destruct (c15_loops_complete nl (pflow_wf _ _ _ _ _ _ _ _ _ _ _ E)) as (ls & El & _). exists ls. split; [exact El|]. intros ->.
  destruct (c128_settles vz istrue hits rb h nm ports width conns asgs procs regs W Do s nl E El v0) as (v & S1 & G1 & Un).
  destruct U as [U|(v' & w & t & i & S2 & S3 & G2 & G3 & N)]; [exact (U v G1 S1)|]. apply N. now rewrite (Un v' S2 G2 t i), (Un w S3 G3 t i).
Qed.
Print Assumptions c128_unstable_reported.

(** A machine whose values settle, in one way, has one run. *)
Lemma runs : forall {V} (vz : V) istrue hits rb h ports conns asgs procs regs, wf_regs vz rb h ports conns asgs procs regs ->
  (exists f : (nat -> nat -> V) -> (nat -> nat -> V), forall v0, psettled vz istrue hits conns asgs procs (f v0) /\ same_givens ports conns asgs procs regs (f v0) v0) ->
  (forall v w, psettled vz istrue hits conns asgs procs v -> psettled vz istrue hits conns asgs procs w -> same_givens ports conns asgs procs regs v w -> forall t i, v t i = w t i) ->
  forall ins, exists run, machine_run vz istrue hits ports conns asgs procs regs ins run /\
    forall run', machine_run vz istrue hits ports conns asgs procs regs ins run' -> forall k t i, run' k t i = run k t i.
Proof.
  intros V vz istrue hits rb h ports conns asgs procs regs Wr (f & F) Dt ins.
  set (load := fun (r i : nat -> nat -> V) (t j : nat) => match find (fun x => existsb (fun b => Nat.eqb (fst b) t && Nat.eqb (snd b) j) (mbits (pr_body x))) regs with
    | Some x => after_edge vz istrue hits x r t j | None => i t j end).
  assert (Fnd : forall x t j, existsb (fun b => Nat.eqb (fst b) t && Nat.eqb (snd b) j) (mbits (pr_body x)) = true <-> @may V (pr_body x) t j).
  { intros x t j. rewrite existsb_exists. rewrite <- mbits_may. split.
    - intros ([t' j'] & I & Q). apply andb_true_iff in Q. cbn in Q. destruct Q as [Q1 Q2]. apply Nat.eqb_eq in Q1, Q2. now subst.
    - intros I. exists (t, j). split; [exact I|]. cbn. now rewrite !Nat.eqb_refl. }
  assert (Ld : forall r i x t j, In x regs -> may (pr_body x) t j -> load r i t j = after_edge vz istrue hits x r t j).
  { intros r i x t j Ix M. unfold load. match goal with |- context [find ?p regs] => destruct (find p regs) as [y|] eqn:Q end.
    - apply find_some in Q. destruct Q as [Iy Q]. apply Fnd in Q. now rewrite (wr_one _ _ _ _ _ _ _ _ Wr x y t j j Ix Iy M Q).
    - apply (find_none _ _ Q) in Ix. apply Fnd in M. congruence. }
  assert (Ln : forall r i t j, ~ S_Seq.register regs t j -> load r i t j = i t j).
  { intros r i t j N. unfold load. match goal with |- context [find ?p regs] => destruct (find p regs) as [y|] eqn:Q end; [|reflexivity].
    apply find_some in Q. destruct Q as [Iy Q]. apply Fnd in Q. destruct N. exists y. auto. }
  assert (Fi : forall p i, free_input ports conns p i -> ~ S_Seq.register regs (fp_sy p) i).
  { intros p i (Ip & R & _) Q. apply (wr_alone _ _ _ _ _ _ _ _ Wr _ _ i Q). left. eapply driven_port; eauto. }
  exists (fix run k := match k with 0 => f (ins 0) | S k => f (load (run k) (ins (S k))) end).
  set (run := fix run k := match k with 0 => f (ins 0) | S k => f (load (run k) (ins (S k))) end).
  assert (M : machine_run vz istrue hits ports conns asgs procs regs ins run).
  { split.
    - intros [|k]; apply F.
    - intros [|k] p i Fp; [destruct (F (ins 0)) as [_ [A _ _]]; now apply A|]. destruct (F (load (run k) (ins (S k)))) as [_ [A _ _]]. cbn [run]. rewrite (A p i Fp). apply Ln. now apply Fi.
    - intros [|k] t i N N'; [destruct (F (ins 0)) as [_ [_ _ A]]; now apply A|]. destruct (F (load (run k) (ins (S k)))) as [_ [_ _ A]]. cbn [run]. rewrite (A t i N N'). now apply Ln.
    - intros t i R. destruct (F (ins 0)) as [_ [_ A _]]. now apply A.
    - intros k x t i Ix My. destruct (F (load (run k) (ins (S k)))) as [_ [_ A _]]. cbn [run]. rewrite (A t i); [|exists x; auto]. now apply Ld. }
  split; [exact M|]. intros run' [S2 A2 C2 I2 E2]. destruct M as [S1 A1 C1 I1 E1].
  assert (Det : forall k, (forall t i, S_Seq.register regs t i -> run' k t i = run k t i) -> forall t i, run' k t i = run k t i).
  { intros k R. apply (Dt (run' k) (run k) (S2 k) (S1 k)). split; [|exact R|].
    - intros p i Fp. now rewrite (A1 k p i Fp), (A2 k p i Fp).
    - intros t i N N'. now rewrite (C1 k t i N N'), (C2 k t i N N'). }
  induction k as [|k IH]; apply Det; intros t i R.
  - now rewrite (I1 t i R), (I2 t i R).
  - destruct R as (x & Ix & My). rewrite (E1 k x t i Ix My), (E2 k x t i Ix My). unfold after_edge. now apply nrun_same.
Qed.

(** One run for each sequence of inputs and first state. *)
Theorem c128_one_run : forall {V} (vz : V) istrue hits rb h nm ports width conns asgs procs regs, wf_clocked vz rb h ports conns asgs procs regs ->
  driven_once vz ports conns asgs procs ->
  forall s nl, pflow vz rb h nm ports width conns asgs (procs ++ regs) = Some (s, nl) -> getAllLoops nl = Some [] ->
  forall ins, exists run, machine_run vz istrue hits ports conns asgs procs regs ins run /\
    forall run', machine_run vz istrue hits ports conns asgs procs regs ins run' -> forall k t i, run' k t i = run k t i.
Proof.
  intros V vz istrue hits rb h nm ports width conns asgs procs regs W Do s nl E NL. pose proof W as (_ & _ & Wr). apply (runs vz istrue hits rb h ports conns asgs procs regs Wr).
  - exact (settle_fun vz istrue hits rb h nm ports width conns asgs procs regs W Do s nl E NL).
  - intros v w S1 S2 [A B C]. exact (c124_values_determined vz istrue hits rb h nm ports width conns asgs procs regs W s nl E NL v w S1 S2 A B C).
Qed.
Print Assumptions c128_one_run.

(** The same when the pending R-values are resolved in parallel. *)
Theorem c128_one_run_parallel : forall {V} (vz : V) istrue hits rb h nm ports width conns asgs procs regs, wf_clocked vz rb h ports conns asgs procs regs ->
  driven_once vz ports conns asgs procs ->
  forall s nl0 nl, pflow vz rb h nm ports width conns asgs (procs ++ regs) = Some (s, nl0) -> resolved_in_parallel s nl -> getAllLoops nl = Some [] ->
  forall ins, exists run, machine_run vz istrue hits ports conns asgs procs regs ins run /\
    forall run', machine_run vz istrue hits ports conns asgs procs regs ins run' -> forall k t i, run' k t i = run k t i.
Proof.
  intros V vz istrue hits rb h nm ports width conns asgs procs regs W Do s nl0 nl E P L.
  destruct (c127_same_connections vz rb h nm ports width conns asgs _ s nl0 nl E P) as [Wf SC].
  destruct (same_loops nl nl0 Wf (pflow_wf _ _ _ _ _ _ _ _ _ _ _ E) SC) as (ls & ls' & L1 & L2 & Em & _). rewrite L in L1. injection L1 as <-.
  rewrite (proj1 Em eq_refl) in L2. exact (c128_one_run vz istrue hits rb h nm ports width conns asgs procs regs W Do s nl0 E L2).
Qed.
Print Assumptions c128_one_run_parallel.

(** * Designs *)
Lemma free_one {V} ports (conns : list (fconn V)) p q i : NoDup (map fp_sy ports) -> free_input ports conns p i -> free_input ports conns q i -> fp_sy p = fp_sy q -> p = q.
Proof.
  intros ND (Ip & _) (Iq & _) E. clear conns i. induction ports as [|x l IH]; [destruct Ip|]. cbn in ND. inversion ND as [|x' l' N ND']; subst. destruct Ip as [->|Ip], Iq as [->|Iq].
  - reflexivity.
  - destruct N. rewrite E. now apply in_map.
  - destruct N. rewrite <- E. now apply in_map.
  - now apply IH.
Qed.
(** The design of C117, with the registers [r] and [q]. *)
Example sq_once : driven_once false sq_ports [] ([] : list (fasg bool)) sq_comb.
Proof.
  split; try solve [intros c v []|intros c []|intros c i []].
  assert (N13 : forall p i, fp_sy p = 13 -> ~ free_input sq_ports ([] : list (fconn bool)) p i).
  { intros p i E (Ip & (lo & hi & I & _) & _). cbn in Ip. each Ip; try discriminate E. destruct I as [I|[]]. discriminate I. }
  intros [a|c|x|p] [a'|c'|x'|p'] s i G G'; cbn in G, G'; try solve [destruct G as [[] _]|destruct G' as [[] _]].
  - destruct G as [[<-|[]] _], G' as [[<-|[]] _]. reflexivity.
  - destruct G as [[<-|[]] G], G' as [E Fp]. exfalso. cbn in G. apply (N13 p' i); [|exact Fp]. intuition congruence.
  - destruct G' as [[<-|[]] G'], G as [E Fp]. exfalso. cbn in G'. apply (N13 p i); [|exact Fp]. intuition congruence.
  - f_equal. destruct G as [E Fp], G' as [E' Fp']. eapply (free_one sq_ports); eauto; [|congruence]. cbn. repeat constructor; cbn; lia.
Qed.
(** There is a run, and with the enable [c] on, [y] follows [a] after two clock edges. *)
Example c128_ex : forall ins, (forall k i, ins k 12 i = true) ->
  exists run, machine_run false holds matches sq_ports [] [] sq_comb (clocked sq_body) ins run /\ forall k i, i < 2 -> run (S (S k)) 13 i = ins k 10 i.
Proof.
  intros ins C. assert (B : match sq_flow sq_comb sq_body with Some (s, nl) => getAllLoops nl = Some [] | None => False end) by (vm_compute; reflexivity).
  destruct (sq_flow sq_comb sq_body) as [[s nl]|] eqn:E; [|destruct B].
  destruct (c128_one_run false holds matches true no_h (fun _ => []) sq_ports (fun _ => 1%Z) [] [] sq_comb (clocked sq_body) sq_all sq_once s nl E B ins) as (run & M & _).
  exists run. split; [exact M|]. intros k i L. destruct M as [S1 A1 _ _ E1].
  assert (F10 : free_input sq_ports ([] : list (fconn bool)) (FPort 0 10 [(0, 1, true)]) i) by (split; [cbn; tauto|split; [exists 0, 1; cbn; split; [tauto|lia]|intros c []]]).
  assert (F12 : free_input sq_ports ([] : list (fconn bool)) (FPort 2 12 [(0, 0, true)]) 0) by (split; [cbn; tauto|split; [exists 0, 0; cbn; split; [tauto|lia]|intros c []]]).
  pose proof (A1 k _ _ F10) as Ea. pose proof (A1 k _ _ F12) as Ec. cbn in Ea, Ec. rewrite C in Ec. rewrite <- Ea.
  destruct (S1 (S (S k))) as [_ P]. rewrite (P (FProc [] (PAsg true (bits_of 13 0 1) (bits_of 15 0 1))) 13 i); [|now left|cbn; destruct i as [|[|i]]; [tauto|tauto|lia]].
  pose proof (E1 (S k) (FProc [(9, EKPos)] sq_body) 15 i) as Q. pose proof (E1 k (FProc [(9, EKPos)] sq_body) 14 i) as R.
  destruct i as [|[|i]]; [| |lia].
  - cbn [prun assign pr_body lbits bits_of]. cbn. rewrite Q; [|now left|cbn; tauto]. unfold after_edge. cbn. rewrite R; [|now left|cbn; tauto]. unfold after_edge. cbn. rewrite Ec. reflexivity.
  - cbn. rewrite Q; [|now left|cbn; tauto]. unfold after_edge. cbn. rewrite R; [|now left|cbn; tauto]. unfold after_edge. cbn. rewrite Ec. reflexivity.
Qed.

(** The design of C99, with an instance: nothing is driven twice. *)
Example ex_once : driven_once false ex_ports ex_conns ex_asgs [].
Proof.
  split.
  - assert (Fr : forall p i, free_input ex_ports ex_conns p i -> p = FPort 0 10 [(0, 3, true)]).
    { intros p i (Ip & (lo & hi & I & _) & N). cbn in Ip. each Ip; try reflexivity; cbn in I; destruct I as [I|[]]; try discriminate I.
      exfalso. apply (N (FConn 2 12 4 false (bits_of 10 0 3))); cbn; auto. }
    assert (Own : forall g s i, gives ex_ports ex_conns ex_asgs [] g s i ->
      (g = GInput (FPort 0 10 [(0, 3, true)]) /\ s = 10) \/ (g = GAsg (nth 0 ex_asgs (FAsg (bits_of 0 0 0) (bits_of 0 0 0))) /\ s = 13) \/
      (g = GAsg (FAsg (bits_of 11 0 1) (bits_of 14 0 1)) /\ s = 11) \/ (g = GAsg (FAsg (bits_of 15 0 1) (bits_of 16 0 1)) /\ s = 15) \/
      (g = GConn (FConn 2 12 4 false (bits_of 10 0 3)) /\ s = 12) \/ (g = GConn (FConn 3 13 4 true (EConcat 4 [bits_of 16 0 1; bits_of 14 0 1])) /\ (s = 14 \/ s = 16))).
    { intros [a|c|x|p] s i G; cbn [gives] in G.
      - destruct G as [Ia G]. cbn in Ia. each Ia; cbn in G; cbn [nth ex_asgs]; intuition (try congruence).
      - destruct G as [Ic G]. cbn in Ic. each Ic; cbn in G; intuition (try congruence).
      - destruct G as [[] _].
      - destruct G as [<- Fp]. apply Fr in Fp. subst p. left. auto. }
    intros g g' s i G G'. apply Own in G, G'. intuition (subst; try discriminate; try reflexivity).
  - intros c I O. cbn in I. each I; [discriminate O|]. cbn. repeat constructor; cbn; intuition congruence.
  - intros c i I O L. cbn in I. each I; [|discriminate O]. exists (FPort 2 12 [(0, 3, true)]). cbn in L. split; [cbn; tauto|]. split; [reflexivity|]. exists 0, 3. cbn. split; [tauto|lia].
  - intros a v I. cbn in I. each I; reflexivity.
  - intros c v I O. cbn in I. each I; [|discriminate O]. reflexivity.
Qed.

(** assign t = ~u; assign u = t: no valuation holds, and the loop is reported. *)
Definition inv (l : list (list bool)) : list bool := map negb (concat l).
Definition os_asgs : list (fasg bool) := [FAsg (bits_of 14 0 0) (EOther 1 None [bits_of 15 0 0] inv); FAsg (bits_of 15 0 0) (bits_of 14 0 0)].
Example c128_oscillates : forall v, ~ psettled false holds matches [] os_asgs [] v.
Proof.
  intros v [[A _] _]. pose proof (A _ (or_introl eq_refl)) as Q1. pose proof (A _ (or_intror (or_introl eq_refl))) as Q2.
  cbn in Q1, Q2. unfold look in Q1, Q2. cbn in Q1, Q2. injection Q1 as Q1. injection Q2 as Q2. rewrite Q2 in Q1. destruct (v 14 0); discriminate Q1.
Qed.
Example c128_oscillates_loop : match pflow false true no_h (fun _ => []) pe_ports (fun _ => 1%Z) [] os_asgs [] with Some (s, nl) => getAllLoops nl = Some [[4; 5]] | None => False end.
Proof. vm_compute. reflexivity. Qed.
(** The theorem applies to it. *)
Lemma os_wf : wf_clocked false true no_h pe_ports [] os_asgs [] ([] : list (fproc bool)).
Proof.
  split; [|split; [intros x []|]].
  - destruct pe_wf as [H1 H2 H3 H4 _ _ _ _ _]. split; auto; try solve [intros c []].
    + intros a I. cbn in I. each I.
      all: (split; [exact I|]; split; [cbn; repeat split; try lia; discriminate|]; split; [cbn; repeat constructor; cbn; intuition congruence|]; split; [|discriminate]).
      all: intros q p Iq Ip R; cbn in Iq; each Iq; cbn in Ip; each Ip; discriminate R.
    + intros a I. cbn in I. each I.
      all: (split; [split; [cbn; repeat split; lia|split]|split; [|split; [reflexivity|]]]).
      all: try (intros s i p I J; cbn in I, J; each J; cbn; intros ->; repeat (destruct I as [I|I]; [discriminate|]); destruct I).
      all: try (intros s i J K; cbn in J, K; repeat (destruct J as [J|J]; [inversion J; subst; repeat (destruct K as [K|K]; [discriminate K|]); destruct K|]); destruct J).
      all: try (intros _; cbn; repeat split; try lia; try discriminate).
      all: intros k x I; repeat (destruct k as [|k]; [cbn in I; destruct I as [I|[]]; try discriminate I; injection I as <-; cbn; tauto|]); cbn in I; destruct k; destruct I.
  - split; [constructor|intros x []|intros s i j (x & [] & _)|intros s i p (x & [] & _)|intros x y s i j []].
Qed.
Example os_once : driven_once false pe_ports [] os_asgs [].
Proof.
  split; try solve [intros c []|intros c i []|intros c v []].
  - assert (Fr : forall p i, free_input pe_ports ([] : list (fconn bool)) p i -> fp_sy p <= 12).
    { intros p i (Ip & (lo & hi & I & _) & N). cbn in Ip. each Ip; cbn in I |- *; try lia. destruct I as [I|[]]; discriminate I. }
    intros [a|c|x|p] [a'|c'|x'|p'] s i G G'; cbn [gives] in G, G'; try solve [destruct G as [[] _]|destruct G' as [[] _]].
    + destruct G as [Ia G], G' as [Ia' G']. cbn in Ia, Ia'. each Ia; each Ia'; try reflexivity; cbn in G, G'; intuition congruence.
    + destruct G as [Ia G], G' as [<- Fp]. apply Fr in Fp. cbn in Ia. each Ia; cbn in G; exfalso; destruct G as [G|[]]; injection G; lia.
    + destruct G' as [Ia G'], G as [<- Fp]. apply Fr in Fp. cbn in Ia. each Ia; cbn in G'; exfalso; destruct G' as [G'|[]]; injection G'; lia.
    + f_equal. destruct G as [E Fp], G' as [E' Fp']. eapply (free_one pe_ports); eauto; [|congruence]. cbn. repeat constructor; cbn; lia.
  - intros a v I. cbn in I. each I; reflexivity.
Qed.
Example c128_oscillates_reported : forall s nl, pflow false true no_h (fun _ => []) pe_ports (fun _ => 1%Z) [] os_asgs [] = Some (s, nl) ->
  exists ls, getAllLoops nl = Some ls /\ ls <> [].
Proof.
  intros s nl E. apply (c128_unstable_reported false holds matches true no_h (fun _ => []) pe_ports (fun _ => 1%Z) [] os_asgs [] [] os_wf os_once s nl E (fun _ _ => false)).
  left. intros v _. exact (c128_oscillates v).
Qed.
