(** Proofs that designs without loops settle. *)
From Coq Require Import Sorted Permutation.
From Verif Require Import Base M_Graph M_Range M_Netlist M_DFS M_Path M_Annot M_Interval M_Heap M_Drivers M_Pending M_DFA M_Builder M_Slice M_Port M_Flow M_Proc
  S_Graph S_Reach S_Netlist S_Annot S_Interval S_Drivers S_Pending S_DFA S_Builder S_Slice S_Port S_Flow S_Proc S_Seq S_Settle
  P_Graph P_DFS P_Path P_Interval P_Heap P_Drivers P_DriversX P_Annot P_Pending P_Pending2 P_DFA P_DFA2 P_Builder P_Slice P_Slice2 P_Port P_Flow P_Flow2 P_Flow3 P_Flow4 P_Flow5 P_Flow6 P_Flow7 P_Flow8
  P_Proc1 P_Proc2 P_Proc3 P_Seq1 P_Seq2 P_Seq3.

(** * Backward induction with a number of rounds *)
Section Back.
Variable I : Type.
Variable R : nat -> nat -> Prop.
Variable cone : list nat.
Hypothesis closed : forall m n, In m cone -> R m n -> In n cone.
Hypothesis acyclic : forall m, In m cone -> ~ Reach1 R m m.
Variable Prov : nat -> I -> Prop.
Variable Rd : nat -> I -> Prop.
(** [same K x]: from round [K] on nothing changes in [x]. *)
Variable same : nat -> I -> Prop.
Hypothesis mono : forall K K' x, K <= K' -> same K x -> same K' x.
Hypothesis prov : forall n x, In n cone -> Prov n x ->
  same 0 x \/ exists A : I -> Prop, (forall K, (forall y, A y -> same K y) -> same (S K) x) /\ forall y, A y -> Rd n y.
Hypothesis read : forall n x, In n cone -> Rd n x ->
  same 1 x \/ exists A : nat -> I -> Prop, (forall K, (forall n' y, A n' y -> same K y) -> same (S K) x) /\ forall n' y, A n' y -> Prov n' y /\ R n n'.

Lemma back3_ind : forall k seen n, NoDup seen -> incl seen cone -> length cone <= length seen + k ->
  (forall m, In m seen -> Reach1 R m n) -> In n cone -> forall x, Prov n x -> same (2 * k) x.
Proof.
  induction k as [|k IH]; intros seen n ND Inc Len An J x P.
  - exfalso. assert (N : ~ In n seen) by (intros K; apply (acyclic n J), An, K).
    assert (L : length (n :: seen) <= length cone).
    { apply NoDup_incl_length; [now constructor|]. intros y [<-|K]; auto. }
    cbn in L. lia.
  - destruct (prov n x J P) as [E|(A & D & Rs)]; [eapply mono; [|exact E]; lia|].
    replace (2 * S k) with (S (S (2 * k))) by lia. apply D. intros y Ty.
    destruct (read n y J (Rs y Ty)) as [E|(B & D' & Rs')]; [eapply mono; [|exact E]; lia|]. apply D'. intros n' z Tz. destruct (Rs' n' z Tz) as [P' St].
    apply (IH (n :: seen) n'); auto.
    + constructor; [|exact ND]. intros K. apply (acyclic n J), An, K.
    + intros y' [<-|K]; auto.
    + cbn. lia.
    + intros m [<-|K]; [exists n'; split; [exact St|constructor]|].
      destruct (An m K) as (c & C1 & C2). exists c. split; [exact C1|]. eapply reach_step; eauto.
    + eauto.
Qed.
Lemma back3_prov n x : In n cone -> Prov n x -> same (2 * length cone) x.
Proof. intros J P. apply (back3_ind (length cone) [] n); auto; [constructor|intros y []|intros m []]. Qed.
End Back.

Section Settle.
Context {V : Type}.
Variable vz : V.
Variable istrue : list V -> bool.
Variable hits : list V -> list V -> bool.
Variable rb : bool.
Variable h : hints.
Variable nm : nat -> str.
Variable ports : list fport.
Variable width : nat -> Z.
Variable conns : list (fconn V).
Variable asgs : list (fasg V).
Variable procs regs : list (fproc V).
Notation env := (nat -> nat -> V).
Hypothesis Wf : wf_design vz rb h ports conns asgs.
Hypothesis Cb : forall x, In x procs -> comb_block vz rb h ports x.
Hypothesis Wr : wf_regs vz rb h ports conns asgs procs regs.
Notation prun := (prun vz istrue hits).
Notation reg := (register regs).
Notation other := (other procs regs).
Notation Prov := (Prov vz ports conns asgs other).
Notation Hk := (Hk ports).
Variable all : list (fproc V).
Hypothesis Pa : Permutation all (procs ++ regs).
Notation pf := (pflow vz rb h nm ports width conns asgs all).

(** A sequence of rounds. *)
Record rounds (v : nat -> env) : Prop := {
  rs_round : forall k, round vz conns asgs (v k) (v (S k));
  rs_proc : forall k x t j, In x procs -> may (pr_body x) t j -> v (S k) t j = prun (pr_body x) (v k) t j;
  rs_keep : forall k t j, ~ pdriven ports conns asgs procs t j -> v (S k) t j = v k t j;
  rs_free : forall k p i, free_input ports conns p i -> v (S k) (fp_sy p) i = v k (fp_sy p) i }.

Lemma same_sym X C m v1 v2 : @same V X C m v1 v2 -> same X C m v2 v1.
Proof. intros [A B]. split; [now symmetry|]. intros. now symmetry. Qed.

Lemma rounds_end s nl cone : pf = Some (s, nl) -> (forall m m', In m cone -> CombBack nl m m' -> In m' cone) -> (forall m, In m cone -> ~ Reach1 (CombBack nl) m m) ->
  (forall n, n < bnext (fb s) -> In n cone) -> forall v, rounds v ->
  forall k, 2 * length cone + 1 <= k -> forall t j, v (S k) t j = v k t j.
Proof.
  intros Fl Cl Ac All v [Ro Pc Kp Fr]. destruct (sstate_built vz istrue hits rb h nm ports width conns asgs procs regs Wf Cb Wr all Pa) as (b1 & ops & s' & G0 & X & C & Es & Pm & B).
  unfold pflow in Fl. rewrite Es in Fl. destruct (emit_all (bvt (fb s')) (bdm (fb s')) (bpend (fb s'))) as [ds|] eqn:Em; [|discriminate].
  destruct (drun (empty_netlist s') (bdeps (fb s') ++ ds)) as [nl'|] eqn:Dn; [|discriminate]. injection Fl as <- <-.
  assert (Rg0 : reachable outEdgeIndexThreshold (ng (empty_netlist s'))) by apply mk_graph_reachable.
  assert (Pe : forall a b, pair_ann (empty_netlist s') a b = []) by (intros a b; unfold pair_ann; cbn [ng empty_netlist]; now rewrite no_edges).
  destruct (drun_conn _ _ _ Rg0 Pe Dn) as (Rg & Ni & _ & Cn).
  destruct B as [Gk Pp Dd LG Nn Nd Bp St Cv Vt]. set (b := fb s') in *.
  assert (Nst : forall m, m < G0 -> forall t w, ~ In (m, BState t w) (bnodes b)) by (intros m L t w I; destruct (St m t w I); lia).
  assert (Edge : forall m n', (forall t w, ~ In (n', BState t w) (bnodes b)) -> (exists e, In e (bdeps b ++ ds) /\ dsrc e = n' /\ dtgt e = m) -> CombBack nl' m n').
  { intros m n' Ns (e & Ie & <- & <-). split; [now apply Cn|]. rewrite Ni. now apply not_state. }
  assert (Back : forall m n' t j, Rd ports b1 b m t j -> drives_global (bdm b) t (Z.of_nat j) n' -> Hk b1 b n' t j -> (forall t' w, ~ In (n', BState t' w) (bnodes b)) -> (forall i, ~ reg t i) -> CombBack nl' m n').
  { intros m n' t j R D H Ln Nr0. apply Edge; [exact Ln|]. destruct R as [[(p & Ip & Ps & Pn & Bb) Np]|(p & a & c & Ip & N & Ep & L & Nr)].
      - destruct (emit_all_has _ _ _ _ p Em Ip) as (l & El & Il).
        assert (Vn : bvt b (psym p) = None).
        { rewrite Vt by (rewrite Ps; exact Nr0). rewrite (pm_vt _ _ _ _ Pm), vt_run_sym. destruct (ops_of (psym p) ops) as [|[r k] rest] eqn:Eo; [reflexivity|].
          assert (Io : In (psym p, r, k) ops) by (apply ops_of_in; rewrite Eo; now left). apply (pm_ops _ _ _ _ Pm) in Io.
          destruct (pm_nodes _ _ _ _ Pm _ _ Io) as (q0 & lo0 & hi0 & a0 & c0 & x0 & Iq0 & Ek & _). injection Ek as Ek _.
          exfalso. apply (Np q0 Iq0). congruence. }
        subst t. destruct (emit_drivers (bvt b) (bdm b) p m (Z.of_nat j) n' l Pn Vn) as (e & Ie & E1 & E2 & _); auto.
        { intros d Ed. exact (Gk _ _ Ed). }
        exists e. split; [apply in_or_app; right; now apply Il|auto].
      - destruct (H p m a c Ip Ep N L) as [Y|(e & Ie & E1 & E2 & _)]; [contradiction|]. exists e. split; [apply in_or_app; now left|auto]. }
  assert (Alone : forall t j, pdriven ports conns asgs procs t j -> forall i, ~ reg t i).
  { intros t j D i R. exact (wr_alone _ _ _ _ _ _ _ _ Wr t i j R D). }
  assert (Un : forall k t j, ~ driven ports conns asgs t j -> ~ other t j -> v (S k) t j = v k t j).
  { intros k t j N1 N2. apply Kp. intros [Y|Y]; [contradiction|apply N2; now left]. }
  set (sm := fun K y => match y with IBit t j => forall k, K <= k -> v (S k) t j = v k t j | IEv m => forall k, K <= k -> same X C m (v (S k)) (v k) end).
  set (Pr := fun m y => match y with IBit t j => Prov b1 b m t j | IEv m' => m = m' /\ G0 <= m < bnext b end).
  set (Rr := fun m y => match y with IBit t j => Rd ports b1 b m t j | IEv m' => G0 <= m' < m /\ m < bnext b /\ joined (bdeps b) m' m end).
  assert (Mo : forall K K' x, K <= K' -> sm K x -> sm K' x).
  { intros K K' [t j|m] L H k Lk; apply H; lia. }
  assert (Stv : forall m t w v1 v2, In (m, BState t w) (bnodes b) -> same X C m v1 v2).
  { intros m t w v1 v2 Is. destruct (St m t w Is) as (_ & x & a & c & _ & _ & Sn). destruct (sn_none _ _ _ _ _ _ _ _ _ _ _ _ _ _ Sn v1) as [A1 A2], (sn_none _ _ _ _ _ _ _ _ _ _ _ _ _ _ Sn v2) as [A3 A4].
    split; [congruence|]. intros t' j'. now rewrite A2, A4. }
  assert (Pv : forall m y, In m cone -> Pr m y -> sm 0 y \/ exists A : item -> Prop, (forall K, (forall z, A z -> sm K z) -> sm (S K) y) /\ forall z, A z -> Rr m z).
  { intros m [t j|m'] I; cbn [Pr sm].
    - intros [(p & a & c & Fp & <- & N & L)|(A & D & H)].
      + left. intros k _. now apply Fr.
      + right. exists (fun z => match z with IBit t' j' => A t' j' | IEv _ => False end). split.
        * intros K Q k Lk. destruct k as [|k]; [lia|]. apply (D (v (S k)) _ (v k) _); [apply Ro..|apply Un|]. intros t' j' Y. apply (Q (IBit t' j') Y). lia.
        * intros [t' j'|]; [exact (H t' j')|intros []].
    - intros [<- L]. right. exists (Rr m). split; [|auto]. intros K Q k Lk. apply (Nn m L).
      + intros m' L' J. apply (Q (IEv m')); [cbn; tauto|lia].
      + intros t j P Np. apply (Q (IBit t j)); [left; auto|lia]. }
  assert (Dp : forall x t j, In x procs -> may (pr_body x) t j -> forall K, (forall k, G0 <= k < bnext b -> drives_global (bdm b) t (Z.of_nat j) k -> Hk b1 b k t j -> sm K (IEv k)) -> sm (S K) (IBit t j)).
  { intros x t j Ix M K Q k Lk. destruct k as [|k]; [lia|]. rewrite (Pc (S k) x t j Ix M), (Pc k x t j Ix M). apply (Nd x t j Ix M). intros n L D Hh. apply (Q n L D Hh). lia. }
  assert (Re : forall m y, In m cone -> Rr m y -> sm 1 y \/ exists A : nat -> item -> Prop, (forall K, (forall n' z, A n' z -> sm K z) -> sm (S K) y) /\ forall n' z, A n' z -> Pr n' z /\ CombBack nl' m n').
  { intros m [t j|m'] I; cbn [Rr].
    - intros R. destruct (driven_dec nm ports conns asgs t j) as [D|N].
      + destruct (Dd t j D) as [(n' & D1 & D2 & D3 & D4)|Q].
        * right. exists (fun k z => k = n' /\ z = IBit t j). split; [intros K Q; apply (Mo K); [lia|]; exact (Q n' (IBit t j) (conj eq_refl eq_refl))|].
          intros k z [-> ->]. split; [exact D3|]. eapply Back; eauto. apply (Alone t j). now left.
        * left. intros k Lk. destruct k as [|k]; [lia|]. apply (Q (v (S k)) _ (v k) _); [apply Ro..|apply Un|intros ? ? []].
      + destruct (by_procs_dec procs t j) as [(x & Ix & M)|N'].
        * right. exists (fun k z => z = IEv k /\ G0 <= k < bnext b /\ drives_global (bdm b) t (Z.of_nat j) k /\ Hk b1 b k t j /\ forall t' w, ~ In (k, BState t' w) (bnodes b)). split.
          -- intros K Q. apply (Dp x t j Ix M). intros k L D Hh. destruct (state_dec b k) as [(t' & w & Is)|Ns]; [intros k0 _; eapply Stv; eauto|]. apply (Q k (IEv k)). tauto.
          -- intros k z (-> & L & D & Hh & Ns). split; [cbn; split; [reflexivity|lia]|]. eapply Back; eauto. apply (Alone t j). right. exists x. auto.
        * left. intros k _. apply Kp. intros [Y|Y]; contradiction.
    - intros (L & L' & e & Ie & E1 & E2).
      destruct (state_dec b m') as [(t & w & Is)|Ns].
      + left. intros k _. eapply Stv; eauto.
      + right. exists (fun k z => k = m' /\ z = IEv m'). split; [intros K Q; apply (Mo K); [lia|]; exact (Q m' (IEv m') (conj eq_refl eq_refl))|].
        intros k z [-> ->]. split; [cbn; split; [reflexivity|lia]|]. apply Edge; [exact Ns|]. exists e. split; [apply in_or_app; now left|auto]. }
  intros k Lk t j. assert (Q : sm (2 * length cone + 1) (IBit t j)); [|exact (Q k Lk)].
  destruct (driven_dec nm ports conns asgs t j) as [D|N].
  - destruct (Dd t j D) as [(n' & D1 & D2 & D3 & D4)|Q].
    + apply (Mo (2 * length cone)); [lia|]. apply (back3_prov _ _ cone Cl Ac _ _ sm Mo Pv Re n' (IBit t j)); [apply All; fold b; lia|exact D3].
    + intros k' Lk'. destruct k' as [|k']; [lia|]. apply (Q (v (S k')) _ (v k') _); [apply Ro..|apply Un|intros ? ? []].
  - destruct (by_procs_dec procs t j) as [(x & Ix & M)|N'].
    + rewrite Nat.add_1_r. apply (Dp x t j Ix M). intros n L D Hh.
      apply (back3_prov _ _ cone Cl Ac _ _ sm Mo Pv Re n (IEv n)); [apply All; fold b; lia|cbn; split; [reflexivity|lia]].
    + intros k' _. apply Kp. intros [Y|Y]; contradiction.
Qed.
End Settle.

(** * One round *)
Section Lists.
Context {A B : Type}.
Lemma comb_fun : forall (l : list A) (r : list B) k x y, NoDup l -> In (k, x) (combine l r) -> In (k, y) (combine l r) -> x = y.
Proof.
  induction l as [|a l IH]; intros [|b r] k x y ND Ix Iy; cbn in *; try contradiction. inversion ND as [|a' l' N ND']; subst.
  destruct Ix as [Ex|Ix], Iy as [Ey|Iy].
  - congruence.
  - injection Ex as -> ->. exfalso. apply N. apply in_combine_l in Iy. exact Iy.
  - injection Ey as -> ->. exfalso. apply N. apply in_combine_l in Ix. exact Ix.
  - eapply IH; eauto.
Qed.
Lemma comb_map (f : A -> B) : forall (l : list A) (r : list B), length l = length r -> (forall k x, In (k, x) (combine l r) -> f k = x) -> map f l = r.
Proof.
  induction l as [|a l IH]; intros [|b r] L H; cbn in *; try discriminate; [reflexivity|]. f_equal; [apply H; now left|]. apply IH; [lia|]. intros k x I. apply H. now right.
Qed.
Lemma comb_in : forall (l : list A) (r : list B) k, length l = length r -> In k l -> exists x, In (k, x) (combine l r).
Proof.
  induction l as [|a l IH]; intros [|b r] k L I; cbn in *; try discriminate; [destruct I|]. destruct I as [->|I]; [exists b; now left|]. destruct (IH r k) as (x & J); [lia|exact I|]. exists x. now right.
Qed.
End Lists.

Section Next.
Context {V : Type}.
Variable vz : V.
Variable istrue : list V -> bool.
Variable hits : list V -> list V -> bool.
Notation env := (nat -> nat -> V).
Notation prun := (prun vz istrue hits).

Lemma assign_agree bs : forall xs e1 e2 t j, e1 t j = e2 t j -> assign vz bs xs e1 t j = assign vz bs xs e2 t j.
Proof. induction bs as [|[s i] r IH]; intros xs e1 e2 t j E; cbn; [exact E|]. destruct (_ && _); [reflexivity|now apply IH]. Qed.
Lemma prun_same : forall (p : pst V) e1 e2, (forall t i, e1 t i = e2 t i) -> forall t i, prun p e1 t i = prun p e2 t i.
Proof.
  induction p as [|bl l r|p IHp q IHq|c t IHt|c t IHt e IHe|c its IHi|p IHp|xs p IHp r IHr] using pst_mind
    with (P0 := fun r => forall u e1 e2, (forall t i, e1 t i = e2 t i) -> forall t i, crun vz istrue hits r u e1 t i = crun vz istrue hits r u e2 t i);
    intros; cbn.
  - auto.
  - rewrite (reads_eval V vz e1 e2 r) by (intros ? ? _; auto). now apply assign_agree.
  - apply IHq. now apply IHp.
  - rewrite (reads_eval V vz e1 e2 c) by (intros ? ? _; auto). destruct (istrue _); auto.
  - rewrite (reads_eval V vz e1 e2 c) by (intros ? ? _; auto). destruct (istrue _); auto.
  - rewrite (reads_eval V vz e1 e2 c) by (intros ? ? _; auto). auto.
  - auto.
  - replace (existsb (fun y => hits u (eval vz e1 y)) xs) with (existsb (fun y => hits u (eval vz e2 y)) xs); [destruct (existsb _ _); auto|].
    clear IHp IHr. induction xs as [|y l IH]; cbn; [reflexivity|]. rewrite IH. now rewrite (reads_eval V vz e1 e2 y) by (intros ? ? _; auto).
Qed.

(** The bits that a block may write, as a list. *)
Fixpoint mbits (p : pst V) : list (nat * nat) :=
  match p with
  | PSkip => []
  | PAsg _ l _ => lbits l
  | PSeq p q => mbits p ++ mbits q
  | PIf _ t => mbits t
  | PIfElse _ t e => mbits t ++ mbits e
  | PCase _ items => cmbits items
  end
with cmbits (x : pcl V) : list (nat * nat) :=
  match x with PDefault p => mbits p | PItem _ p r => mbits p ++ cmbits r end.
Lemma mbits_may : forall (p : pst V) t j, In (t, j) (mbits p) <-> may p t j.
Proof.
  induction p as [|bl l r|p IHp q IHq|c t IHt|c t IHt e IHe|c its IHi|p IHp|xs p IHp r IHr] using pst_mind
    with (P0 := fun r => forall t j, In (t, j) (cmbits r) <-> cmay r t j); intros; cbn; rewrite ?in_app_iff; try tauto.
  - now rewrite IHp, IHq.
  - apply IHt.
  - now rewrite IHt, IHe.
  - apply IHi.
  - apply IHp.
  - now rewrite IHp, IHr.
Qed.

Variable rb : bool.
Variable h : hints.
Variable nm : nat -> str.
Variable ports : list fport.
Variable width : nat -> Z.
Variable conns : list (fconn V).
Variable asgs : list (fasg V).
Variable procs regs : list (fproc V).
Hypothesis Wf : wf_design vz rb h ports conns asgs.
Hypothesis Cb : forall x, In x procs -> comb_block vz rb h ports x.
Hypothesis Wr : wf_regs vz rb h ports conns asgs procs regs.
Hypothesis Do : driven_once vz ports conns asgs procs.

Definition vals (v : env) : list ((nat * nat) * V) :=
  flat_map (fun a => combine (lbits (fa_lhs a)) (eval vz v (fa_rhs a))) asgs ++
  flat_map (fun c => if fc_out c then combine (lbits (fc_actual c)) (map (v (fc_sy c)) (seq 0 (fc_w c)))
                     else combine (map (fun i => (fc_sy c, i)) (seq 0 (fc_w c))) (eval vz v (fc_actual c))) conns ++
  flat_map (fun x => map (fun b => (b, prun (pr_body x) v (fst b) (snd b))) (mbits (pr_body x))) procs.
Definition at_bit (t j : nat) (e : (nat * nat) * V) : bool := Nat.eqb (fst (fst e)) t && Nat.eqb (snd (fst e)) j.
Definition next (v : env) : env := fun t j => match find (at_bit t j) (vals v) with Some e => snd e | None => v t j end.

Definition gval (g : @giver V) (v : env) (t j : nat) (y : V) : Prop :=
  match g with
  | GAsg a => In ((t, j), y) (combine (lbits (fa_lhs a)) (eval vz v (fa_rhs a)))
  | GConn c => In ((t, j), y) (if fc_out c then combine (lbits (fc_actual c)) (map (v (fc_sy c)) (seq 0 (fc_w c)))
                     else combine (map (fun i => (fc_sy c, i)) (seq 0 (fc_w c))) (eval vz v (fc_actual c)))
  | GProc x => y = prun (pr_body x) v t j
  | GInput _ => False
  end.
Notation gives := (gives ports conns asgs procs).
Lemma vals_in v t j y : In ((t, j), y) (vals v) <-> exists g, gives g t j /\ gval g v t j y.
Proof.
  unfold vals. rewrite !in_app_iff, !in_flat_map. split.
  - intros [(a & Ia & I)|[(c & Ic & I)|(x & Ix & I)]].
    + exists (GAsg a). split; [|exact I]. split; [exact Ia|]. eapply in_combine_l; eauto.
    + exists (GConn c). split; [|exact I]. split; [exact Ic|]. destruct (fc_out c); apply in_combine_l in I; [exact I|].
      apply in_map_iff in I. destruct I as (i & E & I). injection E as <- <-. apply in_seq in I. split; [reflexivity|lia].
    + apply in_map_iff in I. destruct I as (b & E & I). injection E as -> <-. exists (GProc x). split; [|reflexivity]. split; [exact Ix|]. now apply mbits_may.
  - intros ([a|c|x|p] & G & Y); cbn in G, Y.
    + left. exists a. tauto.
    + right. left. exists c. tauto.
    + right. right. exists x. split; [tauto|]. subst y. apply in_map_iff. exists (t, j). split; [reflexivity|]. now apply mbits_may.
    + destruct Y.
Qed.
Lemma seq_pairs s w : NoDup (map (fun i : nat => (s : nat, i)) (seq 0 w)).
Proof. apply FinFun.Injective_map_NoDup; [intros a b E; congruence|apply seq_NoDup]. Qed.
Lemma gval_fun g v t j y y' : gives g t j -> gval g v t j y -> gval g v t j y' -> y = y'.
Proof.
  destruct g as [a|c|x|p]; cbn; intros G Y Y'; try congruence; try contradiction.
  - destruct G as [Ia _]. destruct (w_lhs _ _ _ _ _ _ Wf a Ia) as (_ & _ & ND & _). eapply comb_fun; eauto.
  - destruct G as [Ic _]. destruct (fc_out c) eqn:O; [eapply comb_fun; eauto; eapply do_conn; eauto|]. eapply comb_fun; eauto. apply seq_pairs.
Qed.
Lemma next_val v g t j y : gives g t j -> gval g v t j y -> next v t j = y.
Proof.
  intros G Y. unfold next. destruct (find (at_bit t j) (vals v)) as [[[t' j'] y']|] eqn:F.
  - apply find_some in F. destruct F as [I Q]. unfold at_bit in Q. cbn in Q. apply andb_true_iff in Q. destruct Q as [Q1 Q2]. apply Nat.eqb_eq in Q1, Q2. subst t' j'.
    apply vals_in in I. destruct I as (g' & G' & Y'). cbn. pose proof (do_once _ _ _ _ _ Do _ _ _ _ G G') as <-. eapply gval_fun; eauto.
  - exfalso. assert (I : In ((t, j), y) (vals v)) by (apply vals_in; eauto). apply (find_none _ _ F) in I. unfold at_bit in I. cbn in I. rewrite !Nat.eqb_refl in I. discriminate.
Qed.
Lemma next_none v t j : (forall g y, gives g t j -> gval g v t j y -> False) -> next v t j = v t j.
Proof.
  intros N. unfold next. destruct (find (at_bit t j) (vals v)) as [[[t' j'] y']|] eqn:F; [|reflexivity].
  apply find_some in F. destruct F as [I Q]. unfold at_bit in Q. cbn in Q. apply andb_true_iff in Q. destruct Q as [Q1 Q2]. apply Nat.eqb_eq in Q1, Q2. subst t' j'.
  apply vals_in in I. destruct I as (g' & G' & Y'). destruct (N g' y' G' Y').
Qed.

Lemma next_round v : round vz conns asgs v (next v).
Proof.
  split.
  - intros a Ia. destruct (w_lhs _ _ _ _ _ _ Wf a Ia) as (Lv & Tl & _). destruct (w_rhs _ _ _ _ _ _ Wf a Ia) as (_ & _ & Ew & _). destruct (lv_bits vz _ Lv Tl) as (_ & E & _). rewrite E.
    apply comb_map; [rewrite (lv_length vz _ Lv Tl), Ew; symmetry; eapply do_asg; eauto|].
    intros [t j] x I. cbn. apply (next_val v (GAsg a)); [|exact I]. split; [exact Ia|]. eapply in_combine_l; eauto.
  - intros c Ic. destruct (w_conn _ _ _ _ _ _ Wf c Ic) as (_ & Ew & _). destruct (fc_out c) eqn:O.
    + destruct (w_out _ _ _ _ _ _ Wf c Ic O) as (Lv & Tl & _). destruct (lv_bits vz _ Lv Tl) as (_ & E & _). rewrite E.
      apply comb_map; [rewrite (lv_length vz _ Lv Tl), Ew, map_length, seq_length; reflexivity|].
      intros [t j] x I. cbn. apply (next_val v (GConn c)); cbn; rewrite O; [|exact I]. split; [exact Ic|]. eapply in_combine_l; eauto.
    + symmetry. assert (Q : map (fun b => next v (fst b) (snd b)) (map (fun i => (fc_sy c, i)) (seq 0 (fc_w c))) = eval vz v (fc_actual c)); [|rewrite map_map in Q; exact Q].
      apply comb_map; [rewrite map_length, seq_length, (do_act _ _ _ _ _ Do c v Ic O); now symmetry|].
      intros [t j] x I. cbn. apply (next_val v (GConn c)); cbn; rewrite O; [|exact I]. split; [exact Ic|].
      apply in_combine_l in I. apply in_map_iff in I. destruct I as (i & Q & I). injection Q as <- <-. apply in_seq in I. split; [reflexivity|lia].
Qed.

Fixpoint iter (v : env) (k : nat) : env := match k with 0 => v | S k => next (iter v k) end.
Lemma iter_rounds v : rounds vz istrue hits ports conns asgs procs (iter v).
Proof.
  split.
  - intros k. apply next_round.
  - intros k x t j Ix M. apply (next_val _ (GProc x)); [split; assumption|reflexivity].
  - intros k t j N. apply next_none. intros [a|c|x|p] y G Y; cbn in G, Y; [| | |exact Y]; apply N.
    + left. eapply driven_asg; apply G.
    + left. destruct G as [Ic G]. destruct (fc_out c) eqn:O; [eapply driven_conn; eauto|]. destruct G as [-> L].
      destruct (do_cover _ _ _ _ _ Do c j Ic O L) as (p & Ip & <- & R). eapply driven_port; eauto.
    + right. exists x. exact G.
  - intros k p i Fp. apply next_none. intros g y G Y. assert (Gi : gives (GInput p) (fp_sy p) i) by (split; [reflexivity|exact Fp]).
    pose proof (do_once _ _ _ _ _ Do _ _ _ _ G Gi) as ->. exact Y.
Qed.
Lemma iter_givens v k : same_givens ports conns asgs procs regs (iter v k) v.
Proof.
  destruct (iter_rounds v) as [_ _ Kp Fr]. induction k as [|k [A B C]]; [split; [reflexivity|reflexivity|intros s i _ _; reflexivity]|]. split.
  - intros p i Fp. rewrite <- (A p i Fp). now apply (Fr k).
  - intros t i R. rewrite <- (B t i R). apply (Kp k). intros D. exact (wr_alone _ _ _ _ _ _ _ _ Wr t i i R D).
  - intros s i N N'. rewrite <- (C s i N N'). now apply (Kp k).
Qed.
Lemma fixed_settled v w : round vz conns asgs v w -> (forall x t j, In x procs -> may (pr_body x) t j -> w t j = prun (pr_body x) v t j) ->
  (forall t j, w t j = v t j) -> psettled vz istrue hits conns asgs procs v.
Proof.
  intros [Ra Rc] P E. assert (Ev : forall e, eval vz w e = eval vz v e) by (intros e; apply (reads_eval V vz w v e); intros ? ? _; apply E).
  split; [split|].
  - intros a Ia. rewrite <- Ev. now apply Ra.
  - intros c Ic. specialize (Rc c Ic). destruct (fc_out c); [now rewrite <- Ev|]. rewrite Rc. apply map_ext. intros i. apply E.
  - intros x t j Ix M. rewrite <- E. now apply P.
Qed.
Lemma iter_settled all s nl cone : Permutation all (procs ++ regs) -> pflow vz rb h nm ports width conns asgs all = Some (s, nl) -> (forall m m', In m cone -> CombBack nl m m' -> In m' cone) -> (forall m, In m cone -> ~ Reach1 (CombBack nl) m m) ->
  (forall n, n < bnext (fb s) -> In n cone) -> forall v, psettled vz istrue hits conns asgs procs (iter v (2 * length cone + 1)).
Proof.
  intros Pa Fl Cl Ac All v. set (N := 2 * length cone + 1). pose proof (iter_rounds v) as Rs. destruct (iter_rounds v) as [Ro Pc _ _].
  apply (fixed_settled _ (iter v (S N))); [apply Ro|intros x t j; apply (Pc N x t j)|].
  intros t j. apply (rounds_end vz istrue hits rb h nm ports width conns asgs procs regs Wf Cb Wr all Pa s nl cone Fl Cl Ac All (iter v) Rs N). lia.
Qed.
End Next.
