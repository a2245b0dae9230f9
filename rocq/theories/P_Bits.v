(** Every flow of bits is found in the netlist. *)
From Verif Require Import Base M_Graph M_Range M_Netlist M_DFS M_Path M_Annot M_Interval M_Builder M_Slice M_Port M_Flow
  S_Graph S_Reach S_Netlist S_Annot S_Pending S_Slice S_Port S_Flow S_Prec S_Bits P_Slice2 P_Flow3.

Section L.
Context {V : Type}.
Variable vz : V.
Variable rb : bool.
Variable ports : list fport.
Variable conns : list (fconn V).
Variable asgs : list (fasg V).

Lemma carried nl role : exactly vz rb ports conns asgs nl role -> (forall a, In a asgs -> lvalue (fa_lhs a) /\ typed (fun _ _ => False) (fa_lhs a)) ->
  forall s i t j, carries vz rb ports conns asgs s i t j -> exists n, hasNode (ng nl) n = true /\ item_reads vz rb conns (role n) s i /\ item_writes rb conns (role n) t j.
Proof.
  intros X L s i t j C. destruct C as [a k t j Ia E O|c p k Ic Oc Ip Ep (lo & hi & Id & Lk) O|c p t j Ic Oc Ip Ep (lo & hi & Id & Lk) -> E].
  - assert (Lk : k < ew (fa_lhs a)) by (destruct (L a Ia) as [A B]; rewrite <- (lv_length vz _ A B); apply nth_error_Some; congruence).
    destruct (ex_asg _ _ _ _ _ _ _ X a k Ia Lk) as (n & lo & hi & Hn & R & K). exists n. split; [exact Hn|]. rewrite R. split; exists k; (split; [|assumption]); [intros _; exact K|exact K].
  - destruct (ex_port _ _ _ _ _ _ _ X p lo hi true k Ip Id Lk) as (n & a & b & Hn & R & K). exists n. split; [exact Hn|]. rewrite R. split.
    + right. exists c, k. split; [exact Ic|]. split; [exact Oc|]. split; [now rewrite Ep|]. split; [intros _; exact K|exact O].
    + left. split; [reflexivity|]. split; [exact K|]. exists lo, hi. auto.
  - destruct (ex_port _ _ _ _ _ _ _ X p lo hi false i Ip Id Lk) as (n & a & b & Hn & R & K). exists n. split; [exact Hn|]. rewrite R. split.
    + left. split; [reflexivity|]. split; [exact K|]. exists lo, hi. auto.
    + right. exists c, i. split; [exact Ic|]. split; [exact Oc|]. split; [now rewrite Ep|]. split; [intros _; exact K|exact E].
Qed.
Lemma flowed nl role : exactly vz rb ports conns asgs nl role -> (forall a, In a asgs -> lvalue (fa_lhs a) /\ typed (fun _ _ => False) (fa_lhs a)) ->
  forall s i t j, flows vz rb ports conns asgs s i t j -> forall x y, hasNode (ng nl) x = true -> hasNode (ng nl) y = true ->
  item_writes rb conns (role x) s i -> item_reads vz rb conns (role y) t j -> Reach (fed vz rb conns nl role) y x.
Proof.
  intros X L s i t j F. induction F as [s i|s i t j u k C F IH]; intros x y Hx Hy W R.
  - apply reach_one. split; [exact Hx|]. split; [exact Hy|]. exists s, i. split; assumption.
  - destruct (carried nl role X L s i t j C) as (n & Hn & Rn & Wn). eapply reach_trans; [exact (IH n y Hn Hy Wn R)|].
    apply reach_one. split; [exact Hx|]. split; [exact Hn|]. exists s, i. split; assumption.
Qed.
End L.

(** With one bit to a piece, every chain of pieces is a flow of a bit. *)
Section One.
Context {V : Type}.
Variable vz : V.
Variable h : hints.
Variable ports : list fport.
Variable conns : list (fconn V).
Variable asgs : list (fasg V).
Hypothesis W : wf_design vz true h ports conns asgs.
Hypothesis SP : forall p lo hi x, In p ports -> In (lo, hi, x) (fp_drivers p) -> lo = hi.
Hypothesis SA : forall a, In a asgs -> ew (fa_lhs a) = 1.

Lemma conn_drivers c p : In c conns -> In p ports -> fc_port c = fp_id p -> fc_sy c = fp_sy p /\ forall lo hi x, In (lo, hi, x) (fp_drivers p) -> x = negb (fc_out c).
Proof.
  intros Ic Ip E. destruct (w_conn _ _ _ _ _ _ W c Ic) as (_ & _ & p' & Ip' & E1 & E2 & D).
  assert (p' = p).
  { pose proof (w_ids _ _ _ _ _ _ W) as Nd. rewrite E in E1. clear - Nd Ip Ip' E1. induction ports as [|a l IH]; [destruct Ip|]. cbn in Nd. inversion Nd as [|? ? Na Nl]; subst.
    destruct Ip as [->|Ip], Ip' as [->|Ip']; auto; exfalso; apply Na; [rewrite <- E1|rewrite E1]; apply in_map; assumption. }
  subst p'. split; [auto|]. intros lo hi x I. exact (proj2 (D lo hi x I)).
Qed.
Lemma step_carries x s i t j : valid_item vz true ports asgs x -> item_reads vz true conns x s i -> item_writes true conns x t j -> carries vz true ports conns asgs s i t j.
Proof.
  destruct x as [p lo hi|a lo hi|]; cbn; [| |intros _ []].
  - intros (Ip & L & a & c & y & Id & La & Lc) R Wr. pose proof (SP p a c y Ip Id) as <-.
    destruct R as [(-> & Li & Ri)|(c1 & k & Ic & Oc & Ec & K & O)], Wr as [(-> & Lj & Rj)|(c2 & k2 & Ic2 & Oc2 & Ec2 & K2 & E)].
    + exfalso. destruct Ri as (l1 & h1 & I1 & B1), Rj as (l2 & h2 & I2 & B2). pose proof (SP _ _ _ _ Ip I1) as <-. pose proof (SP _ _ _ _ Ip I2) as <-.
      destruct (w_drivers _ _ _ _ _ _ W p Ip) as [_ A]. assert (l1 = l2) by lia. subst l2. clear - A I1 I2.
      apply in_split in I1. destruct I1 as (l & r & Er). rewrite Er in I2. apply in_app_or in I2. destruct I2 as [I|[I|I]]; [|discriminate I|].
      * apply in_split in I. destruct I as (u & v & ->). rewrite <- app_assoc in Er. cbn in Er. destruct (A _ _ _ _ _ _ _ _ _ Er); lia.
      * apply in_split in I. destruct I as (u & v & ->). destruct (A _ _ _ _ _ _ _ _ _ Er); lia.
    + specialize (K2 eq_refl). assert (k2 = i) by lia. subst k2. eapply ca_out; eauto.
    + specialize (K eq_refl). assert (k = j) by lia. subst k. eapply ca_in; eauto.
    + exfalso. pose proof (proj2 (conn_drivers c1 p Ic Ip Ec) _ _ _ Id). pose proof (proj2 (conn_drivers c2 p Ic2 Ip Ec2) _ _ _ Id). rewrite Oc, Oc2 in *. subst. discriminate.
  - intros (Ia & Lh & L & _) (k & K & O) (k2 & K2 & E). specialize (K eq_refl). rewrite (SA a Ia) in Lh. assert (k = k2) by lia. subst k2. eapply ca_asg; eauto.
Qed.
Lemma chain_flows nl role nodes : stands_for vz true ports conns asgs nodes nl role ->
  forall n m, Reach (fed vz true conns nl role) n m -> m = n \/ exists s i t j, item_writes true conns (role m) s i /\ item_reads vz true conns (role n) t j /\ flows vz true ports conns asgs s i t j.
Proof.
  intros St n m R. induction R as [|b c R IH (Hc & Hb & s & i & Wc & Rb)]; [auto|]. right. destruct IH as [->|(s' & i' & t & j & Wb & Rn & F)].
  - exists s, i, s, i. split; [exact Wc|]. split; [exact Rb|apply fl_here].
  - exists s, i, t, j. split; [exact Wc|]. split; [exact Rn|]. eapply fl_step; [|exact F].
    apply (step_carries (role b)); [|exact Rb|exact Wb]. exact (proj1 (st_node _ _ _ _ _ _ _ _ St b Hb)).
Qed.
End One.
