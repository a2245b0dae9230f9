(** C61: task statistics. *)
From Coq Require Import QArith Floats.SpecFloat.
From Verif Require Import Base M_Stats S_Stats P_Stats.

(** ** C61 (in exact arithmetic). For a non-empty list no access is outside the vector and
    every statistic is what its name says. *)
Theorem c61_stats_exact_partial : forall l, l <> [] -> exists s, recordQ l = SOk s /\
  Least l (smin s) /\ Greatest l (smax s) /\ Sum l (stotal s) /\
  smean s * inject_Z (Z.of_nat (length l)) == stotal s /\ Median l (smedian s).
Proof. exact c61. Qed.
Print Assumptions c61_stats_exact_partial.
Theorem c61_stats_ordered_partial : forall l s, l <> [] -> recordQ l = SOk s ->
  smin s <= smedian s <= smax s /\ smin s <= smean s <= smax s.
Proof.
  intros l s N E. destruct (c61 l N) as (t & E1 & A & B & C & D & M). rewrite E in E1. injection E1 as <-.
  split; [eapply median_between; eauto|eapply mean_between; eauto].
Qed.
Print Assumptions c61_stats_ordered_partial.
Example c61_even : recordQ [4#1; 1#1; 3#1; 2#1] = SOk (Stats (1#1) (4#1) (10#1) (10#4) (5#2)).
Proof. vm_compute. reflexivity. Qed.
Example c61_odd : recordQ [5#1; 1#1; 3#1] = SOk (Stats (1#1) (5#1) (9#1) (9#3) (3#1)).
Proof. vm_compute. reflexivity. Qed.
Example c61_empty : recordQ [] = SKeep.
Proof. reflexivity. Qed.

(** In binary64, rounding breaks the ordering: three tasks of a tenth of a second have a mean
    above their maximum. *)
Definition fadd := SFadd 53 1024.
Definition fdiv := SFdiv 53 1024.
Definition fnat (n : nat) : spec_float := binary_normalize 53 1024 (Z.of_nat n) 0 false.
Definition recordF := recordTaskStats (S754_zero false) fadd fdiv fnat SFleb.
Definition finite (x : spec_float) : Prop :=
  match x with S754_finite false m e => bounded 53 1024 m e = true | S754_zero false => True | _ => False end.
Definition tenth : spec_float := fdiv (fnat 1) (fnat 10).

Theorem c61_mean_at_most_max_refuted : ~ (forall l s, l <> [] -> (forall x, In x l -> finite x) ->
  recordF l = SOk s -> SFleb (smean s) (smax s) = true).
Proof.
  intros H. specialize (H [tenth; tenth; tenth]).
  destruct (recordF [tenth; tenth; tenth]) as [|s|] eqn:E; try (vm_compute in E; discriminate).
  assert (C : SFleb (smean s) (smax s) = false).
  { vm_compute in E. injection E as <-. vm_compute. reflexivity. }
  rewrite (H s) in C; [discriminate|discriminate| |reflexivity].
  intros x [<-|[<-|[<-|[]]]]; vm_compute; reflexivity.
Qed.
Print Assumptions c61_mean_at_most_max_refuted.
(** The sum of two large times overflows: the median of finite times is infinite. *)
Theorem c61_median_at_most_max_refuted : ~ (forall l s, l <> [] -> (forall x, In x l -> finite x) ->
  recordF l = SOk s -> SFleb (smedian s) (smax s) = true).
Proof.
  set (big := S754_finite false 9007199254740991 971).
  intros H. specialize (H [big; big]).
  destruct (recordF [big; big]) as [|s|] eqn:E; try (vm_compute in E; discriminate).
  assert (C : SFleb (smedian s) (smax s) = false).
  { vm_compute in E. injection E as <-. vm_compute. reflexivity. }
  rewrite (H s) in C; [discriminate|discriminate| |reflexivity].
  intros x [<-|[<-|[]]]; vm_compute; reflexivity.
Qed.
Print Assumptions c61_median_at_most_max_refuted.
Example c61_tenth : tenth = S754_finite false 7205759403792794 (-56) /\
  exists s, recordF [tenth; tenth; tenth] = SOk s /\ smax s = tenth /\ smedian s = tenth.
Proof. split; [vm_compute; reflexivity|]. eexists. vm_compute. split; [reflexivity|]. split; reflexivity. Qed.
