From Verif Require Import Base M_Table S_Table.

Section PTable.
Context {C : Type}.
Variables bytes cols : C -> nat.
Variables blank eol : C.
Hypothesis blank1 : cols blank = 1.
Hypothesis narrow : forall c, cols c <= bytes c.

Notation tsize := (@tsize C bytes).
Notation tcols := (@tcols C cols).

Lemma total_meas (m : C -> nat) s : Total m s (fold_right (fun c n => m c + n) 0 s).
Proof. induction s; simpl; constructor; auto. Qed.
Lemma total_fun (m : C -> nat) s n : Total m s n -> n = fold_right (fun c n => m c + n) 0 s.
Proof. induction 1; simpl; subst; auto. Qed.
Lemma tcols_app a b : tcols (a ++ b) = tcols a + tcols b.
Proof. clear. induction a; simpl; auto. unfold M_Table.tcols in *. simpl. lia. Qed.
Lemma tcols_blanks k : tcols (repeat blank k) = k.
Proof. clear narrow. induction k; simpl; auto. unfold M_Table.tcols in *. simpl. rewrite blank1. lia. Qed.
Lemma tcols_le s : tcols s <= tsize s.
Proof. unfold M_Table.tcols, M_Table.tsize. induction s; simpl; auto. specialize (narrow a). lia. Qed.

Lemma col_width_ge header (rows : list (list (list C))) c : tsize (nth c header []) <= col_width bytes header rows c.
Proof.
  clear. unfold col_width. generalize (tsize (nth c header [])). induction rows as [|r rows IH]; simpl; intros n; auto.
  destruct (nth_error r c); [|apply IH]. etransitivity; [|apply IH]. lia.
Qed.
Lemma col_width_rows header (rows : list (list (list C))) c r v :
  In r rows -> nth_error r c = Some v -> tsize v <= col_width bytes header rows c.
Proof.
  clear. intros Hr Hv. unfold col_width. generalize (tsize (nth c header [])).
  assert (M : forall (l : list (list (list C))) n, n <= fold_left (fun w r => match nth_error r c with Some v => Nat.max w (tsize v) | None => w end) l n).
  { clear. induction l as [|x l IH]; simpl; intros n; auto. destruct (nth_error x c); [|apply IH].
    etransitivity; [|apply IH]. lia. }
  induction rows as [|x rows IH]; [destruct Hr|]. intros n. simpl in *. destruct Hr as [->|Hr].
  - rewrite Hv. etransitivity; [|apply M]. lia.
  - apply IH; auto.
Qed.
Lemma col_width_attained header (rows : list (list (list C))) c : c < length header ->
  exists r v, In r (header :: rows) /\ nth_error r c = Some v /\ tsize v = col_width bytes header rows c.
Proof.
  clear. intros Hc.
  assert (G : forall (l : list (list (list C))) n, let w := fold_left (fun w r => match nth_error r c with Some v => Nat.max w (tsize v) | None => w end) l n in
     w = n \/ exists r v, In r l /\ nth_error r c = Some v /\ tsize v = w).
  { clear. induction l as [|x l IH]; simpl; intros n; auto.
    destruct (nth_error x c) as [v|] eqn:E.
    - destruct (IH (Nat.max n (tsize v))) as [H|(r & u & H1 & H2 & H3)]; [|right; exists r, u; auto].
      rewrite H. destruct (Nat.max_spec n (tsize v)) as [[_ ->]|[_ ->]]; auto.
      right. exists x, v. auto.
    - destruct (IH n) as [H|(r & u & H1 & H2 & H3)]; auto. right. exists r, u. auto. }
  destruct (G rows (tsize (nth c header []))) as [H|(r & v & H1 & H2 & H3)].
  - exists header, (nth c header []). split; [left; auto|]. split; [apply nth_error_nth'; auto|].
    unfold col_width. symmetry. exact H.
  - exists r, v. split; [right; auto|auto].
Qed.

Lemma widths_nth header (rows : list (list (list C))) c : c < length header ->
  nth_error (widths bytes header rows) c = Some (col_width bytes header rows c).
Proof.
  clear. intros H. unfold widths. rewrite nth_error_map.
  rewrite (nth_error_nth' _ 0); [|rewrite seq_length; auto]. rewrite seq_nth; auto.
Qed.
Lemma widths_length header (rows : list (list (list C))) : length (widths bytes header rows) = length header.
Proof. clear. unfold widths. now rewrite map_length, seq_length. Qed.

Lemma pad_total v w : tcols v <= w -> Total cols (v ++ repeat blank (w - tcols v)) w.
Proof.
  intros H. replace w with (tcols (v ++ repeat blank (w - tcols v))) at 2.
  - apply total_meas.
  - rewrite tcols_app, tcols_blanks. lia.
Qed.

(** The cells from column [c] on are laid out. *)
Lemma append_fields gap (r : list (list C)) : forall ws c,
  length r = c + length ws ->
  (forall i w v, nth_error ws i = Some w -> nth_error r (c + i) = Some v -> tcols v <= w) ->
  Fields cols blank gap (skipn c r) ws (append_cells cols blank gap r c ws).
Proof.
  induction ws as [|w ws IH]; intros c L B.
  - simpl in *. rewrite skipn_all2 by lia. constructor.
  - destruct (nth_error r c) as [v|] eqn:E.
    2:{ apply nth_error_None in E. simpl in L. lia. }
    assert (S1 : skipn c r = v :: skipn (S c) r).
    { clear - E. revert c E. induction r as [|x r IHr]; intros [|c] E; simpl in *; try discriminate.
      - injection E as ->. reflexivity.
      - now rewrite (IHr c E). }
    assert (W : tcols v <= w).
    { apply (B 0 w v); simpl; auto. now rewrite Nat.add_0_r. }
    rewrite S1. cbn [append_cells]. rewrite E. destruct ws as [|w' ws'].
    + cbn [append_cells]. rewrite !app_nil_r. rewrite skipn_all2 by (simpl in L; lia).
      unfold pad_right. constructor. now apply pad_total.
    + unfold pad_right at 1. apply F_more; [now apply pad_total|discriminate|].
      apply IH; [simpl in *; lia|]. intros i x y Hx Hy. apply (B (S i) x y); auto.
      rewrite <- Hy. f_equal. lia.
Qed.

Lemma c59 gap header (rows : list (list (list C))) : (forall r, In r rows -> length r = length header) ->
  Table cols blank eol gap bytes (header :: rows) (length header) (formatTable bytes cols blank eol gap header rows).
Proof.
  intros L. exists (widths bytes header rows), (map (append_row cols blank eol gap (widths bytes header rows)) (header :: rows)).
  assert (La : forall r, In r (header :: rows) -> length r = length header).
  { intros r [<-|H]; auto. }
  assert (Bd : forall r c v, c < length header -> In r (header :: rows) -> nth_error r c = Some v ->
                tsize v <= col_width bytes header rows c).
  { intros r c v Hc [<-|H] Hv; [|eapply col_width_rows; eauto].
    rewrite <- (nth_error_nth _ c [] Hv). apply col_width_ge. }
  split; [apply widths_length|]. split; [reflexivity|]. split.
  - assert (G : forall tab, (forall r, In r tab -> In r (header :: rows)) ->
      Forall2 (fun r l => exists f, l = f ++ [eol] /\ Fields cols blank gap r (widths bytes header rows) f) tab
        (map (append_row cols blank eol gap (widths bytes header rows)) tab)).
    { induction tab as [|r tab IH]; simpl; intros I; constructor; [|apply IH; intros x Hx; apply (I x (or_intror Hx))].
      exists (append_cells cols blank gap r 0 (widths bytes header rows)). split; [reflexivity|].
      apply (append_fields gap r (widths bytes header rows) 0).
      - rewrite widths_length. simpl. apply La, I. auto.
      - intros i w v Hw Hv. simpl in Hv.
        assert (Hi : i < length header). { rewrite <- (widths_length header rows). apply nth_error_Some. congruence. }
        rewrite (widths_nth header rows i Hi) in Hw. injection Hw as <-.
        etransitivity; [apply tcols_le|]. apply (Bd r); [exact Hi|exact (I r (or_introl eq_refl))|exact Hv]. }
    apply G. auto.
  - intros c Hc. exists (col_width bytes header rows c). split; [now apply widths_nth|]. split.
    + intros r v Hr Hv. exists (tsize v). split; [apply total_meas|]. eapply Bd; eauto.
    + destruct (col_width_attained header rows c Hc) as (r & v & H1 & H2 & H3).
      exists r, v. split; auto. split; auto. rewrite <- H3. apply total_meas.
Qed.

(** On a laid-out line the cell of column [c] stands at the column's start. *)
Lemma fields_at gap r ws line c v : Fields cols blank gap r ws line -> nth_error r c = Some v ->
  exists pre post, line = pre ++ v ++ post /\ Total cols pre (start gap ws c).
Proof.
  clear narrow. intros F. revert c v. induction F as [|u k w T|u k w r ws line T N F IH]; intros c v E.
  - destruct c; discriminate.
  - destruct c as [|c]; [|destruct c; discriminate]. injection E as <-. exists [], (repeat blank k). split; auto. constructor.
  - destruct c as [|c].
    + injection E as <-. exists [], (repeat blank k ++ repeat blank gap ++ line). split; [|constructor].
      simpl. now rewrite <- app_assoc.
    + destruct (IH c v E) as (pre & post & -> & P). exists ((u ++ repeat blank k) ++ repeat blank gap ++ pre), post.
      split; [now rewrite <- !app_assoc|]. simpl.
      apply total_fun in T. apply total_fun in P.
      replace (w + gap + start gap ws c) with (tcols ((u ++ repeat blank k) ++ repeat blank gap ++ pre)).
      * apply total_meas.
      * rewrite (tcols_app (u ++ repeat blank k)), (tcols_app (repeat blank gap)), tcols_blanks. unfold M_Table.tcols at 1 2. lia.
Qed.
End PTable.
