(** C27: edge annotations. *)
From Coq Require Import String.
From Verif Require Import Base M_Graph S_Graph M_Range M_Netlist M_Annot S_Annot P_Annot.

Definition two : netlist :=
  mk_netlist [NInfo 1 KAssignment None (Some (Range 7%Z 0%Z)); NInfo 2 KVariable None None] [].
Lemma two_reachable : reachable thr (ng two).
Proof. exists [OAddNode; OAddNode]. eexists. vm_compute. reflexivity. Qed.

(** C27, full statement: after any sequence of addDependency calls, every call
    (source, target, symbol, bounds) has an edge source->target annotated with its
    symbol and covering its bounds. False: a second symbol on the same pair of nodes
    replaces the annotation of the first. *)
Definition lost_calls : list dep :=
  [DDep 0 1 (Some (lit "a")) (Range 0%Z 0%Z) EKNone; DDep 0 1 (Some (lit "b")) (Range 0%Z 0%Z) EKNone].
Theorem c27_annotation_kept_refuted :
  ~ (forall nl ds nl' a b s r k, reachable thr (ng nl) -> drun nl ds = Some nl' ->
       (forall e, In e (outs (nst (ng nl) a)) -> etgt e <> b) ->
       In (DDep a b (Some s) r k) ds -> Covered nl' a b s (wanted nl a r)).
Proof.
  intros H. destruct (drun two lost_calls) as [nl'|] eqn:E; [|vm_compute in E; discriminate].
  destruct (H two lost_calls nl' 0 1 (lit "a") (Range 0%Z 0%Z) EKNone two_reachable E) as (e & H1 & H2 & H3 & _).
  - intros e [].
  - now left.
  - assert (A : map (fun e => asym (eatt nl' (eid e))) (outs (nst (ng nl') 0)) = [Some (lit "b")]).
    { vm_compute in E. injection E as <-. reflexivity. }
    apply (in_map (fun e => asym (eatt nl' (eid e)))) in H1. rewrite A in H1. destruct H1 as [H1|[]].
    rewrite H3 in H1. discriminate H1.
Qed.
Print Assumptions c27_annotation_kept_refuted.

(** C27, what holds: when all annotated calls for a pair carry one symbol, every call
    keeps an edge that covers all its bits (cut down to the source node's own bounds),
    and the edges of the pair together carry exactly the bits asked for, whatever other
    calls are interleaved. *)
Theorem c27_annotation_kept_partial : forall nl ds nl' a b s, reachable thr (ng nl) ->
  (forall e, In e (outs (nst (ng nl) a)) -> etgt e <> b) ->
  one_symbol a b s ds -> drun nl ds = Some nl' ->
  (forall r k, In (DDep a b (Some s) r k) ds -> Covered nl' a b s (wanted nl a r)) /\
  (forall i, (exists e, In e (outs (nst (ng nl') a)) /\ etgt e = b /\ asym (eatt nl' (eid e)) = Some s /\
                        bit_in (abounds (eatt nl' (eid e))) i) <->
             exists r k, In (DDep a b (Some s) r k) ds /\ wanted nl a r i).
Proof. exact c27. Qed.
Print Assumptions c27_annotation_kept_partial.
(** Bits 0, 1 and 5 of one symbol, a bare dependency first, another pair in between:
    [1:0] merges on the first edge and [5] gets an edge of its own. *)
Example c27_nonvacuous :
  option_map (fun nl => map (fun e => (asym (eatt nl (eid e)), abounds (eatt nl (eid e)))) (outs (nst (ng nl) 0)))
    (drun two [DPlain 0 1; DDep 0 1 (Some (lit "a")) (Range 0%Z 0%Z) EKNone;
               DDep 1 1 (Some (lit "z")) (Range 3%Z 3%Z) EKNone;
               DDep 0 1 (Some (lit "a")) (Range 5%Z 5%Z) EKNone;
               DDep 0 1 (Some (lit "a")) (Range 1%Z 1%Z) EKNone])
  = Some [(Some (lit "a"), Range 0%Z 1%Z); (Some (lit "a"), Range 5%Z 5%Z)].
Proof. vm_compute. reflexivity. Qed.

(** The edge kind is a single field of the first edge: a later call with another kind
    replaces it, also for bits recorded before. *)
Example c27_kind_overwritten :
  option_map (fun nl => map (fun e => akind (eatt nl (eid e))) (outs (nst (ng nl) 0)))
    (drun two [DDep 0 1 (Some (lit "a")) (Range 0%Z 0%Z) EKPos;
               DDep 0 1 (Some (lit "a")) (Range 1%Z 1%Z) EKNone]) = Some [EKNone].
Proof. vm_compute. reflexivity. Qed.
