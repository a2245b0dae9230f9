(** Proofs for the serialiser: what an accepted document is like, and what is left behind
    by any document. *)
From Coq Require Import Ascii String.
From Verif Require Import Base M_Range M_Graph S_Graph P_Graph M_Netlist M_Intern S_Intern P_Intern M_Serial S_Serial P_Serial.

Lemma Ok_inj {A} (x y : A) : Ok x = Ok y -> x = y.
Proof. congruence. Qed.

Section Serial.
Variable cval : Type.
Variable cbad : cval.
Variable cparse : str -> option cval.
Notation nlg := (nlg cval).
Notation nst_ := (nstep cbad cparse).
Notation deser := (deserialize cbad cparse).
Notation thr := outEdgeIndexThreshold.

Lemma each_inv {S} (P : S -> Prop) (f : S -> json -> S * out unit) :
  (forall s j, P s -> P (fst (f s j))) -> forall l s, P s -> P (fst (each f l s)).
Proof.
  intros H. induction l as [|j l IH]; intros s Hs; cbn [each]; [exact Hs|].
  specialize (H s j Hs). destruct (f s j) as [s' [u| |]]; cbn [fst] in *; auto.
Qed.

(** ** The graph stays well formed *)
Definition NInv (s : nlg * idmap * Z) : Prop :=
  reachable thr (lg (fst (fst s))) /\
  forall k n, id_find (snd (fst s)) k = Some n -> In n (gnodes (lg (fst (fst s)))).

Lemma addNodeData_reach (g : nlg) d id : reachable thr (lg g) ->
  reachable thr (lg (fst (addNodeData g d id))) /\
  gnodes (lg (fst (addNodeData g d id))) = gnodes (lg g) ++ [snd (addNodeData g d id)].
Proof.
  intros R. unfold addNodeData.
  assert (S : step thr (lg g) OAddNode = Some (fst (addNode (lg g)), RNode (snd (addNode (lg g))))).
  { cbn [step]. now destruct (addNode (lg g)). }
  pose proof (reachable_step _ _ _ _ _ R S) as R1.
  assert (G : gnodes (fst (addNode (lg g))) = gnodes (lg g) ++ [snd (addNode (lg g))]) by reflexivity.
  destruct (addNode (lg g)) as [gr n]. cbn [fst snd lg] in *. auto.
Qed.

Lemma nstep_inv s j : NInv s -> NInv (fst (nst_ s j)).
Proof.
  destruct s as [[g m] next]. intros [R H]. cbn [fst snd] in *. unfold nstep.
  destruct (nodeFromJson cbad cparse j) as [[id d]| |]; [|split; assumption|split; assumption].
  destruct (addNodeData_reach g d next R) as [R1 G1].
  destruct (addNodeData g d next) as [g' n]. cbn [fst snd] in *. split; cbn [fst snd]; [assumption|].
  intros k x Hx. rewrite G1. apply in_or_app. cbn [id_find] in Hx.
  destruct (Z.eqb id k); [injection Hx as <-; right; now left|left; now apply (H k)].
Qed.

Lemma addEdge_reach g a b : reachable thr g -> In a (gnodes g) -> In b (gnodes g) ->
  reachable thr (fst (node_addEdge thr g a b)) /\ gnodes (fst (node_addEdge thr g a b)) = gnodes g.
Proof.
  intros R Ha Hb. split.
  - apply (reachable_step thr g (OAddEdge a b) _ (REdge (snd (node_addEdge thr g a b)))); [assumption|].
    cbn [step]. unfold g_addEdge. rewrite !hasNode_memb.
    rewrite (proj2 (memb_In _ _) Ha), (proj2 (memb_In _ _) Hb). reflexivity.
  - unfold node_addEdge. now destruct (lookupOutEdge (nst g a) b).
Qed.

Definition GInv (m : idmap) (g : nlg) : Prop :=
  reachable thr (lg g) /\ forall k n, id_find m k = Some n -> In n (gnodes (lg g)).

Lemma estep_graph m (g : nlg) j : GInv m g -> 
  (lg (fst (estep m g j)) = lg g /\ forall x, snd (estep m g j) <> Ok x) \/
  exists a b s t, lg (fst (estep m g j)) = fst (node_addEdge thr (lg g) a b) /\
    (x <- field j "source" ;; getU64 x) = Ok s /\ (x <- field j "target" ;; getU64 x) = Ok t /\
    id_find m s = Some a /\ id_find m t = Some b.
Proof.
  intros [R H]. unfold estep.
  destruct (field j "source") as [sa| |]; cbn [bind]; [|left; split; [reflexivity|discriminate]..].
  destruct (getU64 sa) as [s| |]; cbn [bind]; [|left; split; [reflexivity|discriminate]..].
  destruct (field j "target") as [ta| |]; cbn [bind]; [|left; split; [reflexivity|discriminate]..].
  destruct (getU64 ta) as [t| |]; cbn [bind]; [|left; split; [reflexivity|discriminate]..].
  destruct (id_find m s) as [a|] eqn:Ea; [|left; split; [reflexivity|discriminate]].
  destruct (id_find m t) as [b|] eqn:Eb; [|left; split; [reflexivity|discriminate]].
  right. exists a, b, s, t. split; [|auto].
  destruct (node_addEdge thr (lg g) a b) as [gr e]. cbn [fst].
  destruct (field j "edgeKind") as [kj| |]; cbn [bind]; try reflexivity.
  destruct (getStr kj) as [ks| |]; try reflexivity.
  destruct (field j "symbol") as [sj| |]; try reflexivity.
  match goal with |- context [match ?c with Ok _ => _ | Throw => _ | Undef => _ end] => destruct c as [os| |] end; try reflexivity.
  match goal with |- context [let (_, _) := ?c in _] => destruct c as [tab p] end.
  match goal with |- context [match ?c with Ok _ => _ | Throw => _ | Undef => _ end] => destruct c as [bb| |] end; try reflexivity.
  match goal with |- context [match ?c with Ok _ => _ | Throw => _ | Undef => _ end] => destruct c as [dd| |] end; reflexivity.
Qed.

Lemma estep_inv m (g : nlg) j : GInv m g -> GInv m (fst (estep m g j)).
Proof.
  intros I. destruct (estep_graph m g j I) as [[E _]|(a & b & s & t & E & _ & _ & Ea & Eb)]; destruct I as [R H];
    unfold GInv; rewrite E; [auto|].
  destruct (addEdge_reach (lg g) a b R (H _ _ Ea) (H _ _ Eb)) as [R1 G1]. rewrite G1. auto.
Qed.

Lemma fstep_lg (g : nlg) j : lg (fst (fstep g j)) = lg g.
Proof. unfold fstep. now destruct (getStr j). Qed.
Lemma bstep_lg (g : nlg) j : lg (fst (bstep g j)) = lg g.
Proof. unfold bstep. now destruct (getStr j). Qed.

Lemma deser_reachable next j (g : nlg) : reachable thr (lg g) -> reachable thr (lg (fst (deser next j g))).
Proof.
  intros R. unfold deserialize.
  destruct (v <- field j "version" ;; getI32 v) as [v| |]; try exact R.
  destruct (negb (v =? 3)%Z); [exact R|].
  destruct (field j "fileTable") as [fj| |]; try exact R.
  pose proof (each_inv (fun x : nlg => reachable thr (lg x)) fstep
    (fun s q Hs => eq_ind_r (reachable thr) Hs (fstep_lg s q)) (elems fj) g R) as R1.
  destruct (each fstep (elems fj) g) as [g1 [u| |]]; cbn [fst] in R1; try exact R1.
  assert (R2 : reachable thr (lg (fst (if has j "blackBoxes"
        then match field j "blackBoxes" with Ok bj => each bstep (elems bj) g1 | Throw => (g1, Throw) | Undef => (g1, Undef) end
        else (g1, Ok tt))))).
  { destruct (has j "blackBoxes"); [|exact R1]. destruct (field j "blackBoxes") as [bj| |]; try exact R1.
    apply (each_inv (fun x : nlg => reachable thr (lg x)) bstep
      (fun s q Hs => eq_ind_r (reachable thr) Hs (bstep_lg s q)) (elems bj) g1 R1). }
  match goal with |- context [let (_, _) := ?c in _] => destruct c as [g2 r2] end. cbn [fst] in R2.
  destruct r2 as [u2| |]; try exact R2.
  destruct (field j "nodes") as [nj| |]; try exact R2.
  assert (I2 : NInv (g2, [], next)) by (split; [exact R2|discriminate]).
  pose proof (each_inv NInv nst_ nstep_inv (elems nj) _ I2) as I3.
  destruct (each nst_ (elems nj) (g2, [], next)) as [[[g3 m] nx] r3]. cbn [fst] in I3.
  destruct I3 as [R3 H3]. cbn [fst snd] in R3, H3.
  destruct r3 as [u3| |]; try exact R3.
  destruct (field j "edges") as [ej| |]; try exact R3.
  apply (each_inv (GInv m) (estep m) (estep_inv m) (elems ej) g3 (conj R3 H3)).
Qed.

(** ** Accepted documents *)
Definition rd (j : json) (k : string) : out Z := a <- field j k ;; getU64 a.
Definition declared (nj : json) (s : Z) : Prop := exists n, In n (elems nj) /\ rd n "id" = Ok s.

Lemma nodes_accept : forall l g m next g' m' next',
  reachable thr (lg g) ->
  each nst_ l (g, m, next) = ((g', m', next'), Ok tt) ->
  length (gnodes (lg g')) = length (gnodes (lg g)) + length l /\
  Forall (fun n => exists id d, nodeFromJson cbad cparse n = Ok (id, d)) l /\
  (forall k x, id_find m' k = Some x -> (exists n, In n l /\ rd n "id" = Ok k) \/ id_find m k = Some x).
Proof.
  induction l as [|j l IH]; intros g m next g' m' next' R E; cbn [each] in E.
  - injection E as <- <- <-. cbn [length]. split; [lia|]. split; [constructor|]. auto.
  - unfold nstep at 1 in E. destruct (nodeFromJson cbad cparse j) as [[id d]| |] eqn:N; [|discriminate|discriminate].
    destruct (addNodeData_reach g d next R) as [R1 G1].
    destruct (addNodeData g d next) as [g1 n]. cbn [fst snd] in R1, G1.
    destruct (IH _ _ _ _ _ _ R1 E) as (A & B & C). rewrite A, G1, app_length. cbn [length].
    split; [lia|]. split; [constructor; eauto|].
    intros k x Hx. destruct (C k x Hx) as [(y & Y1 & Y2)|Hm]; [left; exists y; split; [now right|assumption]|].
    cbn [id_find] in Hm. destruct (Z.eqb_spec id k) as [Q|Q]; [|now right]. subst k.
    left. exists j. split; [now left|]. unfold rd. unfold nodeFromJson in N. revert N.
    destruct (field j "id") as [ij| |]; cbn [bind]; try discriminate.
    destruct (getU64 ij) as [z| |]; cbn [bind]; try discriminate.
    destruct (field j "kind") as [kj| |]; cbn [bind]; try discriminate.
    destruct (getStr kj) as [ks| |]; cbn [bind]; try discriminate.
    match goal with |- bind ?c _ = _ -> _ => destruct c as [dd| |] end; cbn [bind]; congruence.
Qed.

Lemma edges_accept m nj : (forall k x, id_find m k = Some x -> declared nj k) ->
  forall l (g g' : nlg), GInv m g -> each (estep m) l g = (g', Ok tt) ->
  gnodes (lg g') = gnodes (lg g) /\
  Forall (fun e => exists s t, rd e "source" = Ok s /\ rd e "target" = Ok t /\ declared nj s /\ declared nj t) l.
Proof.
  intros D. induction l as [|j l IH]; intros g g' I E; cbn [each] in E.
  - injection E as <-. auto.
  - pose proof (estep_graph m g j I) as G. pose proof (estep_inv m g j I) as I1.
    destruct (estep m g j) as [g1 r] eqn:Es. cbn [fst snd] in G, I1.
    destruct r as [u| |]; try discriminate.
    destruct G as [[_ C]|(a & b & s & t & E1 & E2 & E3 & E4 & E5)]; [exfalso; now apply (C u)|].
    destruct (IH g1 g' I1 E) as [A B]. split.
    + rewrite A, E1. unfold node_addEdge. now destruct (lookupOutEdge (nst (lg g) a) b).
    + constructor; [|exact B]. exists s, t. eauto 10.
Qed.

Lemma each_lg (f : nlg -> json -> nlg * out unit) : (forall s q, lg (fst (f s q)) = lg s) ->
  forall l g g' r, each f l g = (g', r) -> lg g' = lg g.
Proof.
  intros H l g g' r E. pose proof (each_inv (fun x => lg x = lg g) f) as X.
  specialize (X (fun s q Hs => eq_trans (H s q) Hs) l g eq_refl). now rewrite E in X.
Qed.

Lemma accepted next j (g g' : nlg) : reachable thr (lg g) -> deser next j g = (g', Ok tt) ->
  exists v nj ej,
    field j "version" = Ok v /\ ((exists z, v = JNum z /\ (z mod 4294967296 = 3)%Z) \/ v = JFlt 3) /\
    field j "nodes" = Ok nj /\ field j "edges" = Ok ej /\
    length (gnodes (lg g')) = length (gnodes (lg g)) + length (elems nj) /\
    Forall (fun n => exists id d, nodeFromJson cbad cparse n = Ok (id, d)) (elems nj) /\
    Forall (fun e => exists s t, rd e "source" = Ok s /\ rd e "target" = Ok t /\ declared nj s /\ declared nj t) (elems ej).
Proof.
  intros R. unfold deserialize.
  destruct (field j "version") as [v| |]; cbn [bind]; try discriminate.
  destruct (getI32 v) as [z| |] eqn:Ev; try discriminate.
  destruct (Z.eqb_spec z 3) as [->|]; cbn [negb]; try discriminate.
  destruct (field j "fileTable") as [fj| |]; try discriminate.
  destruct (each fstep (elems fj) g) as [g1 [u1| |]] eqn:E1; try discriminate.
  apply (each_lg _ fstep_lg) in E1.
  match goal with |- context [let (_, _) := ?c in _] => destruct c as [g2 r2] eqn:E2 end.
  assert (G2 : lg g2 = lg g1).
  { destruct (has j "blackBoxes"); [|congruence]. destruct (field j "blackBoxes") as [bj| |]; try congruence.
    eapply (each_lg _ bstep_lg); eauto. }
  destruct r2 as [u2| |]; try discriminate.
  destruct (field j "nodes") as [nj| |]; try discriminate.
  destruct (each nst_ (elems nj) (g2, [], next)) as [[[g3 m] nx] [u3| |]] eqn:E3; try discriminate.
  destruct (field j "edges") as [ej| |]; try discriminate. intros E4.
  destruct u3.
  assert (R2 : reachable thr (lg g2)) by congruence.
  assert (I2 : NInv (g2, [], next)) by (split; [exact R2|discriminate]).
  pose proof (each_inv NInv nst_ nstep_inv (elems nj) _ I2) as I3. rewrite E3 in I3.
  destruct (nodes_accept _ _ _ _ _ _ _ R2 E3) as (A & B & C).
  assert (D : forall k x, id_find m k = Some x -> declared nj k).
  { intros k x Hx. destruct (C k x Hx) as [D|D]; [exact D|discriminate]. }
  destruct (edges_accept m nj D _ g3 g' I3 E4) as [F1 F2].
  exists v, nj, ej. split; [reflexivity|]. split.
  { unfold getI32, getInt in Ev. destruct v; try discriminate.
    - injection Ev as Ev. destruct b; discriminate.
    - apply Ok_inj in Ev. left. exists z. split; [reflexivity|]. unfold wrap, p32 in Ev.
      replace (z - -2147483648)%Z with (z + 2147483648)%Z in Ev by lia.
      pose proof (Z.mod_pos_bound (z + 2147483648) 4294967296 ltac:(lia)).
      assert (((z + 2147483648) mod 4294967296 = 2147483651)%Z) by lia.
      pose proof (Z.div_mod (z + 2147483648) 4294967296 ltac:(lia)) as DM. rewrite H0 in DM. clear - DM.
      symmetry. apply (Z.mod_unique z 4294967296 ((z + 2147483648) / 4294967296) 3); [left; lia|lia].
    - destruct (_ && _)%bool; [|discriminate]. injection Ev as ->. now right. }
  split; [reflexivity|]. split; [reflexivity|]. split; [|split; assumption].
  rewrite F1, A, G2, E1. reflexivity.
Qed.

End Serial.
