From Coq Require Import Ascii String.
From Verif Require Import Base M_Graph S_Graph P_Graph S_Reach M_Range M_Netlist S_Netlist M_Text S_Text P_Text
  M_Serial M_Path P_Path M_Query S_Query P_Query M_Cycle M_Dot M_Report S_Report P_Report M_Cli S_Dot P_Dot S_Cli P_Cli.
Notation length := List.length.

Section PCli2.
Variable cval : Type.
Variable ctext : cval -> str.
Variable addr : nat -> nat.
Variable diags : bool.
Variable live : nat -> bool.
Variable g : nlg cval.
Hypothesis M : Mirror (lg g).
Hypothesis F : FilesKnown cval g.
Notation nl := (nl_of cval g).

(** ** Constants *)
Lemma combback_in n m : In n (gnodes (lg g)) -> Reach (CombBack nl) n m -> In m (gnodes (lg g)).
Proof.
  intros I H. induction H as [|b c H IH [(e & Ie & Te & _) _]]; auto. apply (mir_out _ M _ _ Ie).
Qed.
Lemma const_ok x :
  (exists n ns t, First cval g x n /\ run_const cval ctext g x = COk (OTable [lit "Value"; lit "Location"] t) /\
     Forall2 (ConstRow cval ctext g) ns t /\ NoDup ns /\
     (Source cval g n -> ns = []) /\
     (~ Source cval g n -> forall c, In c ns <-> c <> n /\ Reach (CombBack nl) n c /\ nkind (ninf nl c) = KConstant)) \/
  (run_const cval ctext g x = CMsg (lit "could not find node: " ++ x) /\ forall n, ~ Named cval g n x).
Proof.
  unfold run_const, requireNode. destruct (require_spec cval g (lit "could not find node") x) as [(n & -> & Fn)|[-> N]];
    [left|right; auto]. cbn [cbind]. pose proof (first_in _ _ _ _ Fn) as In_.
  destruct (c21 nl n M In_) as (res & -> & ND & H1 & H2). cbn [of_option cbind].
  destruct (ctraverse_ok (fun m => match lnode g m with DConstant v _ _ => name_row cval g m (ctext v) | _ => CBad end)
              (ConstRow cval ctext g) res) as (t & E & Ft).
  - intros m I.
    assert (NS : ~ Source cval g n) by (intros S; rewrite (H1 S) in I; destruct I).
    apply (H2 NS) in I. destruct I as (_ & R & K). pose proof (combback_in _ _ In_ R) as Im.
    destruct (loc_cell_ok cval g F m Im) as (t & Et & Lt). unfold LocCell in Lt.
    change (nkind (ninf nl m)) with (data_kind cval (lnode g m)) in K.
    unfold name_row. rewrite Et. destruct (lnode g m) as [| | | | | |v w l| |] eqn:D; try discriminate.
    eexists. split; [reflexivity|]. exists v, w, l, t. auto.
  - rewrite E. exists n, res, t. split; auto.
Qed.

(** ** Drivers *)
Lemma described d : Described cval ctext d (describeDriver cval ctext d).
Proof. destruct d as [n p l dir b| | | | | | | |]; try constructor. destruct dir; constructor; discriminate. Qed.
Lemma bd_rows ds : (forall d, In d ds -> In (snd d) (gnodes (lg g))) -> exists t,
  ctraverse (fun d : range * nat => cbind (loc_cell cval g (snd d)) (fun t =>
           COk [range_toString (fst d); describeDriver cval ctext (lnode g (snd d)); t])) ds = COk t /\
  Forall2 (DriverRow cval ctext g) ds t.
Proof.
  intros I. apply ctraverse_ok. intros d Hd. destruct (loc_cell_ok cval g F _ (I d Hd)) as (t & -> & Lt). cbn [cbind].
  eexists. split; [reflexivity|]. exists (describeDriver cval ctext (lnode g (snd d))), t. split; [apply described|auto].
Qed.
Lemma drivers_ok x p q : (forall a b, addr a = addr b -> a = b) ->
  (RangeText x p q \/ ((forall p r, ~ RangeText x p r) /\ p = x /\ q = Range 0 2147483647)) ->
  (exists ds t, (exists n, Named cval g n p) /\
     run_drivers cval ctext addr g x = COk (OTable [lit "Bits"; lit "Driver"; lit "Location"] t) /\
     Forall2 (DriverRow cval ctext g) ds t /\ Driving cval g p q ds) \/
  (run_drivers cval ctext addr g x = CMsg (lit "could not find node: " ++ p) /\ forall n, ~ Named cval g n p).
Proof.
  intros Ia H.
  assert (P : exists r, parseNameAndRange x = (p, r) /\
     match r with Some r => getBitDrivers addr nl p r | None => getBitDrivers_all addr nl p end = getBitDrivers addr nl p q).
  { destruct H as [H|(H & -> & ->)].
    - exists (Some q). split; auto. now apply c25_bwd.
    - exists None. split; [now apply c25_whole|reflexivity]. }
  destruct P as (r & P & E). unfold run_drivers. rewrite P, E. unfold requireNode.
  destruct (require_spec cval g (lit "could not find node") p) as [(n & -> & Fn)|[-> N]]; [left|right; auto]. cbn [cbind].
  destruct (c19 addr nl p q M Ia) as (H1 & H2 & H3 & H4 & H5 & _).
  destruct (bd_rows (getBitDrivers addr nl p q)) as (t & Et & Ft).
  { intros [r0 d] I. cbn [snd]. destruct (H3 _ _ I) as (b & Hb). destruct (proj1 (H1 d b)) as [(e & Id & _) _]; [eauto|exact Id]. }
  rewrite Et. exists (getBitDrivers addr nl p q), t. split; [|split; [reflexivity|split; [exact Ft|split; auto]]].
  destruct Fn as (l1 & l2 & _ & N & _). eauto.
Qed.

(** ** Paths *)
Lemma find_path_spec a b s e : In s (gnodes (lg g)) -> In e (gnodes (lg g)) ->
  (exists p, find_path cval g a b s e = COk p /\ hd_error p = Some s /\ last p s = e /\ NoDup p /\ Walk (Conn nl) p /\ s <> e) \/
  (find_path cval g a b s e = CMsg (lit "no path between " ++ a ++ lit " and " ++ b) /\ (s = e \/ ~ Reach1 (Conn nl) s e)).
Proof.
  intros Is Ie. unfold find_path. destruct (c11 nl s e M Is Ie) as (p & E & H). rewrite E. destruct p as [|n p].
  - right. split; [reflexivity|]. destruct (Nat.eq_dec s e) as [->|D]; auto. right.
    destruct (c12 nl s e M Is Ie D) as (p & E' & H'). rewrite E in E'. injection E' as <-.
    intros R. now apply H' in R.
  - left. exists (n :: p). split; [reflexivity|]. destruct H as (H1 & H2 & H3 & H4); [discriminate|]. repeat split; auto.
    intros ->. unfold pf_find in E. rewrite (path_with_self nl (pred_enabled nl) e M Is) in E. discriminate.
Qed.
Lemma run_path_spec a b :
  (run_path cval diags live g a b = CMsg (lit "could not find start point: " ++ a) /\ forall n, ~ Named cval g n a) \/
  (run_path cval diags live g a b = CMsg (lit "could not find finish point: " ++ b) /\ forall n, ~ Named cval g n b) \/
  exists s e, First cval g a s /\ First cval g b e /\
   ((run_path cval diags live g a b = CMsg (lit "no path between " ++ a ++ lit " and " ++ b) /\ (s = e \/ ~ Reach1 (Conn nl) s e)) \/
    exists p, hd_error p = Some s /\ last p s = e /\ NoDup p /\ Walk (Conn nl) p /\ s <> e /\
      run_path cval diags live g a b = match reportPath cval g diags live p with ROk r => COk (OReports [r]) | _ => CBad end).
Proof.
  unfold run_path. destruct (require_spec cval g (lit "could not find start point") a) as [(s & -> & Fs)|[-> N]];
    [right|left; auto]. cbn [cbind].
  destruct (require_spec cval g (lit "could not find finish point") b) as [(e & -> & Fe)|[-> N]];
    [right|left; auto]. cbn [cbind].
  exists s, e. split; auto. split; auto.
  destruct (find_path_spec a b s e (first_in _ _ _ _ Fs) (first_in _ _ _ _ Fe)) as [(p & -> & H)|[-> H]]; cbn [cbind].
  - right. exists p. destruct H as (H1 & H2 & H3 & H4 & H5). repeat split; auto. destruct (reportPath cval g diags live p); reflexivity.
  - left. auto.
Qed.

(** ** DOT *)
Lemma dot_text f : (forall n, In n (gnodes (lg g)) -> lnode g n <> DNone) -> exists out,
  Induced cval ctext range_toString g f out /\ render cval ctext g f = Some (doc_text print_int out).
Proof. intros K. apply c58; auto. Qed.
Lemma dot_scope_ok o :
  (exists f, dot_scope cval g o = COk f /\ ScopeOf cval g o f) \/ (exists m, dot_scope cval g o = CMsg m /\ NoScope cval g o m).
Proof.
  unfold dot_scope, requireNode.
  assert (Cone : forall (R : nat -> nat -> Prop) n l, hd_error l = Some n -> (forall m, In m l <-> Reach R n m) ->
            forall m, In m (n :: l) <-> Reach R n m).
  { intros R n l _ H m. simpl. rewrite H. split; [|tauto]. intros [<-|K]; auto. constructor. }
  destruct (o_fanout o) as [x|] eqn:Eo.
  - destruct (require_spec cval g (lit "could not find node") x) as [(n & -> & Fn)|[-> N]]; cbn [cbind].
    + left. destruct (fanOut_spec nl n M (first_in _ _ _ _ Fn)) as (l & -> & _ & Hd & HL). cbn [of_option cbind].
      eexists. split; [reflexivity|]. eapply SO_out; eauto.
    + right. eexists. split; [reflexivity|]. apply (NS_name cval g o x); auto.
  - destruct (o_fanin o) as [x|] eqn:Ei.
    + destruct (require_spec cval g (lit "could not find node") x) as [(n & -> & Fn)|[-> N]]; cbn [cbind].
      * left. destruct (fanIn_spec nl n M (first_in _ _ _ _ Fn)) as (l & -> & _ & Hd & HL). cbn [of_option cbind].
        eexists. split; [reflexivity|]. eapply SO_in; eauto.
      * right. eexists. split; [reflexivity|]. apply (NS_name cval g o x); auto.
    + destruct (o_from o) as [a|] eqn:Ef; [|left; eexists; split; [reflexivity|]; apply SO_all; auto].
      destruct (o_to o) as [b|] eqn:Et; [|left; eexists; split; [reflexivity|]; apply SO_all; auto].
      destruct (require_spec cval g (lit "could not find node") a) as [(s & -> & Fs)|[-> N]]; cbn [cbind].
      2:{ right. eexists. split; [reflexivity|]. apply (NS_name cval g o a); auto. right. split; auto. right. split; auto. left. split; auto. congruence. }
      destruct (require_spec cval g (lit "could not find node") b) as [(e & -> & Fe)|[-> N]]; cbn [cbind].
      2:{ right. eexists. split; [reflexivity|]. apply (NS_name cval g o b); auto. right. split; auto. right. split; auto. right. split; auto. congruence. }
      destruct (find_path_spec a b s e (first_in _ _ _ _ Fs) (first_in _ _ _ _ Fe)) as [(p & -> & H)|[-> H]]; cbn [cbind].
      * left. eexists. split; [reflexivity|]. destruct H as (H1 & H2 & H3 & H4 & H5). eapply SO_path; eauto.
      * right. eexists. split; [reflexivity|]. eapply NS_path; eauto.
Qed.
End PCli2.
