(** Proofs about the cuts recorded for the connections of a design. *)
From Verif Require Import Base M_Range M_Interval M_Slice M_Port M_Flow S_Interval S_Slice S_Port S_Flow S_Cuts
  P_Interval P_Slice P_Slice2 P_Port P_Port2 P_Port3 P_Flow3.

Section L.
Context {V : Type}.
Variable vz : V.
Notation nodyn := (fun (_ : path) (_ : nat) => False).

(** A position of a concatenation is a position of one of its operands. *)
Lemma lbits_split (es : list (expr V)) : (forall x, In x es -> length (lbits x) = ew x) -> forall k v, nth_error (concat (rev (map lbits es))) k = Some v ->
  exists a x b j, es = a ++ x :: b /\ k = list_sum (map ew b) + j /\ nth_error (lbits x) j = Some v.
Proof.
  induction es as [|y es IH]; intros Ln k v E; [destruct k; discriminate|]. cbn [map rev] in E. rewrite concat_app in E. cbn [concat] in E. rewrite app_nil_r in E.
  assert (Le : length (concat (rev (map lbits es))) = list_sum (map ew es)).
  { assert (Q : forall l : list (expr V), (forall x, In x l -> length (lbits x) = ew x) -> length (concat (rev (map lbits l))) = list_sum (map ew l)).
    { induction l as [|z l IHl]; intros H; [reflexivity|]. cbn [map rev]. rewrite concat_app, app_length. cbn [concat]. rewrite app_nil_r, IHl, (H z); [|now left|intros x I; apply H; now right].
      change (list_sum (ew z :: map ew l)) with (ew z + list_sum (map ew l)). lia. }
    apply Q. intros x I. apply Ln. now right. }
  destruct (Nat.lt_ge_cases k (list_sum (map ew es))) as [L|L].
  - rewrite nth_error_app1 in E by lia. destruct (IH (fun x I => Ln x (or_intror I)) k v E) as (a & x & b & j & -> & Q). exists (y :: a), x, b, j. split; [reflexivity|exact Q].
  - rewrite nth_error_app2 in E by lia. rewrite Le in E. exists [], y, es, (k - list_sum (map ew es)). split; [reflexivity|]. split; [lia|exact E].
Qed.
Lemma lbits_at (a b : list (expr V)) x j : (forall y, In y (a ++ x :: b) -> length (lbits y) = ew y) -> j < ew x ->
  nth_error (concat (rev (map lbits (a ++ x :: b)))) (list_sum (map ew b) + j) = nth_error (lbits x) j.
Proof.
  intros Ln L. induction a as [|y a IH]; cbn [app map rev].
  - rewrite concat_app. cbn [concat]. rewrite app_nil_r.
    assert (Q : forall l : list (expr V), (forall x, In x l -> length (lbits x) = ew x) -> length (concat (rev (map lbits l))) = list_sum (map ew l)).
    { induction l as [|z l IHl]; intros H; [reflexivity|]. cbn [map rev]. rewrite concat_app, app_length. cbn [concat]. rewrite app_nil_r, IHl, (H z); [|now left|intros y I; apply H; now right].
      change (list_sum (ew z :: map ew l)) with (ew z + list_sum (map ew l)). lia. }
    assert (Qb : length (concat (rev (map lbits b))) = list_sum (map ew b)) by (apply Q; intros y I; apply Ln; now right).
    rewrite nth_error_app2 by lia. f_equal. lia.
  - rewrite concat_app. cbn [concat]. rewrite app_nil_r. assert (In' : forall z, In z (a ++ x :: b) -> length (lbits z) = ew z) by (intros z I; apply Ln; now right).
    specialize (IH In'). rewrite nth_error_app1; [exact IH|]. apply nth_error_Some. rewrite IH. apply nth_error_Some. rewrite Ln; [exact L|]. right. apply in_or_app. right. now left.
Qed.

(** A cut between two neighbouring positions is a boundary. *)
Lemma lv_bset h : sorted_hints h -> forall e : expr V, lvalue e -> typed nodyn e -> forall k s i l, nth_error (lbits e) k = Some (s, i) -> nth_error (lbits e) (S k) = Some (s, S i) ->
  h s = Some l -> In (S i) l -> bset V h e (S k).
Proof.
  intros Sh. apply (expr_rect' V (fun e => lvalue e -> typed nodyn e -> forall k s i l, nth_error (lbits e) k = Some (s, i) -> nth_error (lbits e) (S k) = Some (s, S i) ->
    h s = Some l -> In (S i) l -> bset V h e (S k))); try (intros; contradiction).
  - intros p w _ (Lp & Ew & Rp) k s i l E1 E2 Hs I. cbn [lbits] in E1, E2. destruct (proot p) as [s'|] eqn:R; [|congruence].
    assert (L2 : S k < w). { assert (Q : S k < length (map (fun i => (s', plo p + i)) (seq 0 w))) by (apply nth_error_Some; congruence). now rewrite map_length, seq_length in Q. }
    rewrite nth_error_map in E1. rewrite (nth_error_nth' (seq 0 w) 0) in E1 by (rewrite seq_length; lia). rewrite seq_nth in E1 by lia. cbn in E1. injection E1 as <- <-.
    replace (S k) with (S (plo p + k) - plo p) by lia. apply BLspCut; [lia|]. apply (proj2 (splits_spec h p Sh)). split; [lia|]. exists s', l. auto.
  - intros w es IH Lv (Ew & T) k s i l E1 E2 Hs I. cbn [lbits] in E1, E2. cbn [lvalue] in Lv.
    assert (Lv' : forall x, In x es -> lvalue x). { clear -Lv. induction es as [|y es IHe]; intros x J; [destruct J|]. destruct Lv as [A B]. destruct J as [<-|J]; auto. }
    assert (T' : forall x, In x es -> typed nodyn x). { clear -T. induction es as [|y es IHe]; intros x J; [destruct J|]. destruct T as [A B]. destruct J as [<-|J]; auto. }
    assert (Ln : forall x, In x es -> length (lbits x) = ew x) by (intros x J; apply (lv_length vz); auto).
    destruct (lbits_split es Ln k _ E1) as (a & x & b & j & -> & -> & Ej). assert (Ix : In x (a ++ x :: b)) by (apply in_or_app; right; now left).
    assert (Lj : j < ew x) by (rewrite <- (Ln x Ix); apply nth_error_Some; congruence).
    rewrite <- Nat.add_succ_r in *. apply BCat. destruct (Nat.eq_dec (S j) (ew x)) as [Q|Q]; [rewrite Q; refine (bset_end vz (fun _ => []) h Sh x (T' x Ix) _); lia|].
    rewrite lbits_at in E2; [|exact Ln|lia]. rewrite Forall_forall in IH. exact (IH x Ix (Lv' x Ix) (T' x Ix) j s i l Ej E2 Hs I).
Qed.

Variable symw : nat -> N.
Lemma kept_regl (xs : list (@pconn V)) s : (forall x, In x xs -> cinternal x <> Some s) -> forall g, recordCuts symw g xs s = g s.
Proof.
  induction xs as [|x xs IH]; intros N g; [reflexivity|]. unfold recordCuts in *. cbn [fold_left]. rewrite IH by (intros y I; apply N; now right).
  unfold record_one. destruct (cactual x) as [e|]; [|reflexivity]. destruct (cinternal x) as [sy|] eqn:E; [|reflexivity]. destruct (_ || _); [reflexivity|].
  unfold addCuts. destruct (map N.of_nat _); [reflexivity|]. unfold upd. destruct (Nat.eqb_spec s sy) as [->|]; [|reflexivity]. exfalso. apply (N x); [now left|exact E].
Qed.

Lemma lv_shaped : forall e : expr V, lvalue e -> concat_shaped e.
Proof.
  apply (expr_rect' V (fun e => lvalue e -> concat_shaped e)); try (intros; contradiction); [intros; exact I|].
  intros w es IH Lv. rewrite Forall_forall in IH. cbn [lvalue concat_shaped] in *. induction es as [|x es IHe]; [exact I|]. destruct Lv as [A B].
  split; [apply IH; [now left|exact A]|]. apply IHe; [intros y J; apply IH; now right|exact B].
Qed.

Lemma recorded_known g (conns : list (fconn V)) : reg_sorted g -> outer_first conns -> port_widths symw conns ->
  forall c, In c conns -> fc_out c = true -> ew (fc_actual c) = fc_w c -> lvalue (fc_actual c) -> typed nodyn (fc_actual c) ->
  cuts_known (hints_of (recordCuts symw g (map seen conns))) c.
Proof.
  intros Sg Of Co c Ic Oc Ew Lv T k s i l E1 E2 Hs I. pose proof (Co c Ic Oc) as Sw. apply in_split in Ic. destruct Ic as (p & q & Ec).
  set (gp := recordCuts symw g (map seen p)). assert (Sp : reg_sorted gp) by (now apply recordCuts_sorted).
  assert (Ks : recordCuts symw g (map seen conns) s = gp s).
  { rewrite Ec, map_app. unfold recordCuts. rewrite fold_left_app. change (recordCuts symw gp (map seen (c :: q)) s = gp s). apply kept_regl. intros x J.
    apply in_map_iff in J. destruct J as (c' & <- & J). cbn. intros Q. injection Q as Q. refine (Of p c q s i c' Ec Oc _ J Q). eapply nth_error_In; eauto. }
  assert (B : bset V (hints_of gp) (fc_actual c) (S k)).
  { refine (lv_bset (hints_of gp) (hints_sorted gp Sp) (fc_actual c) Lv T k s i l E1 E2 _ I). unfold hints_of, cutsFor in *. now rewrite Ks in Hs. }
  assert (Lk : S k < ew (fc_actual c)). { rewrite <- (lv_length vz _ Lv T). apply nth_error_Some. congruence. }
  assert (Bd : boundary (build vz (hints_of gp) (fc_actual c) []) (S k)).
  { destruct (build_bset V vz _ (hints_sorted _ Sp) (fc_actual c) T [] 0 eq_refl) as (n & E & _ & Bn). cbn [app] in E. rewrite E. apply Bn. eauto. }
  apply hints_in. apply recordCuts_in. right. exists (map seen p), (seen c), (map seen q), (fc_actual c). split; [rewrite Ec, map_app; reflexivity|].
  split; [repeat split; cbn; now symmetry|]. replace (N.to_nat (N.of_nat (S k))) with (S k) by lia. split; [|rewrite Sw; lia].
  apply (cuts_boundary vz (fun _ => []) _ (hints_sorted _ Sp)); auto using lv_shaped. lia.
Qed.

(** The cuts of a port are final once its connection has been seen. *)
Lemma cuts_final prop p (c : fconn V) q : NoDup (map (fun c => fc_sy c) (p ++ c :: q)) ->
  cuts_of prop symw (p ++ c :: q) (fc_sy c) = cuts_of prop symw (p ++ [c]) (fc_sy c).
Proof.
  intros N. destruct prop; [|reflexivity]. unfold cuts_of, hints_of, cutsFor. f_equal. change (p ++ c :: q) with (p ++ [c] ++ q) at 1. rewrite app_assoc, map_app. unfold recordCuts.
  rewrite fold_left_app. apply kept_regl. intros x J. apply in_map_iff in J. destruct J as (c' & <- & J). cbn. intros Q. injection Q as Q.
  rewrite map_app in N. apply NoDup_remove_2 in N. apply N. apply in_or_app. right. rewrite <- Q. now apply (in_map (fun c => fc_sy c)).
Qed.

Lemma none_sorted : reg_sorted (fun _ => None).
Proof. intros s l E. discriminate. Qed.

(** A design that is well formed without cuts is so with the cuts that are recorded. *)
Lemma cuts_wf rb prop ports conns asgs : wf_design vz rb (fun _ => None) ports conns asgs -> outer_first conns -> port_widths symw conns -> rb || negb prop = true ->
  wf_design vz rb (cuts_of prop symw conns) ports conns asgs.
Proof.
  intros W Of Pw Op. destruct prop; [|exact W]. cbn in Op. rewrite orb_false_r in Op. subst rb. destruct W as [W1 W2 W3 W4 W5 W6 W7 W8 W9]. constructor; auto.
  - apply hints_sorted, recordCuts_sorted, none_sorted.
  - intros a I. destruct (W5 a I) as (A1 & A2 & A3 & A4 & _). repeat (split; [assumption|]). discriminate.
  - intros c I O. destruct (W9 c I O) as (A1 & A2 & A3 & _). repeat (split; [assumption|]). unfold cuts_of. destruct (W7 c I) as (_ & E & _).
    apply recorded_known; auto using none_sorted.
Qed.
End L.
