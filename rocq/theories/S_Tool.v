(** What slang-report should select and list. *)
From Coq Require Import Ascii String.
From Verif Require Import Base M_Range M_Netlist S_Text M_Text M_Serial M_Tool.

(** A wildcard: a token that is not a literal character. *)
Definition Wild (s : str) : Prop := exists ts t, Lex s ts /\ In t ts /\ forall c, t <> TLit c.

(** Preorder of a tree of symbols, entering the symbols for which [Open] holds. *)
Section Pre.
Variable Open : symbol -> Prop.
Inductive Pre : symbol -> list symbol -> Prop :=
| Pre_closed s : ~ Open s -> Pre s [s]
| Pre_open s l : Open s -> Pres (s_members s) l -> Pre s (s :: l)
with Pres : list symbol -> list symbol -> Prop :=
| Pres_nil : Pres [] []
| Pres_cons s r l l' : Pre s l -> Pres r l' -> Pres (s :: r) (l ++ l').
End Pre.

(** The elements of a list with a property, in order. *)
Inductive Kept {A} (P : A -> Prop) : list A -> list A -> Prop :=
| Kept_nil : Kept P [] []
| Kept_in a l r : P a -> Kept P l r -> Kept P (a :: l) (a :: r)
| Kept_out a l r : ~ P a -> Kept P l r -> Kept P (a :: l) r.
(** The first occurrences, by identity, of symbols that are not in [seen]. *)
Inductive Firsts : list nat -> list symbol -> list symbol -> Prop :=
| Firsts_nil seen : Firsts seen [] []
| Firsts_new seen s l r : ~ In (s_id s) seen -> Firsts (s_id s :: seen) l r -> Firsts seen (s :: l) (s :: r)
| Firsts_old seen s l r : In (s_id s) seen -> Firsts seen l r -> Firsts seen (s :: l) r.

(** Instances that are elaborated, and scopes, are walked. *)
Definition Elaborated (s : symbol) : Prop := s_kind s = SScope \/ s_kind s = SInst false.
(** A pattern selects the symbols below the root whose path it matches. *)
Definition PathMatches (pat : str) (s : symbol) : Prop :=
  s_path s <> [] /\ exists ts, Lex pat ts /\ Matches ts (s_path s).
Inductive Answers (root : symbol) (lookupName : str -> option symbol) (x : str) : list symbol -> Prop :=
| An_glob all l : Wild x -> Pres Elaborated (s_members root) all -> Kept (PathMatches x) all l -> Answers root lookupName x l
| An_name s : ~ Wild x -> lookupName x = Some s -> Answers root lookupName x [s].

(** The symbols in a tree, and trees in which no symbol occurs twice. *)
Inductive Inside : symbol -> symbol -> Prop :=
| Inside_self s : Inside s s
| Inside_member s m x : In m (s_members s) -> Inside m x -> Inside s x.
Definition Whole (s : symbol) (l : list symbol) : Prop := Pre (fun _ => True) s l.
Definition Distinct (root : symbol) : Prop := exists l, Whole root l /\ NoDup (map s_id l).

(** Symbols of the kind that a report is about. *)
Definition Wanted (w : what) (s : symbol) : Prop :=
  match w with
  | Ports => exists d n t, s_content s = CPort d n t
  | Variables => (exists t n, s_content s = CVar t n) \/ exists n t k, s_content s = CNet n t k
  | Drivers => (exists t n, s_content s = CVar t n) \/ (exists n t k, s_content s = CNet n t k) \/ s_content s = CValue
  end.
(** A visitor enters what is not reported itself. *)
Definition Entered (enter : bool) (w : what) (s : symbol) : Prop :=
  ~ Wanted w s /\ (s_kind s = SScope \/ s_kind s = SInst false \/ (s_kind s = SInst true /\ enter = true)).
Definition NamePasses (names : list str) (s : symbol) : Prop :=
  names = [] \/ exists q ts, In q names /\ Lex q ts /\ Matches ts (s_path s).
Definition Listed (enter : bool) (w : what) (names : list str) (roots l : list symbol) : Prop :=
  exists all, Pres (Entered enter w) roots all /\ Kept (fun s => Wanted w s /\ NamePasses names s) all l.

(** The table rows of a symbol. *)
Definition place (l : option (str * Z * Z)) : str :=
  match l with Some (f, line, col) => f ++ lit ":" ++ print_int line ++ lit ":" ++ print_int col | None => lit "?" end.
Inductive ItemRows (drivers : symbol -> list driver) : what -> symbol -> list (list str) -> Prop :=
| IR_port s d n net : s_content s = CPort d n net ->
    ItemRows drivers Ports s [[directionToString d; s_path s; print_int n; match net with Some x => x | None => lit "var" end; place (s_loc s)]]
| IR_var s t n : s_content s = CVar t n ->
    ItemRows drivers Variables s [[s_path s; t; print_int n; lit "var"; print_int (Z.of_nat (List.length (drivers s))); place (s_loc s)]]
| IR_net s k t n : s_content s = CNet k t n ->
    ItemRows drivers Variables s [[s_path s; t; print_int n; k; print_int (Z.of_nat (List.length (drivers s))); place (s_loc s)]]
| IR_value s rs : Wanted Drivers s ->
    Forall2 (fun d r => r = [["226"%char; "134"%char; "179"%char]; range_toString (v_bounds d); v_text d;
                             if v_proc d then lit "proc" else lit "cont"; place (v_loc d)]) (drivers s) rs ->
    ItemRows drivers Drivers s ([s_path s; []; []; []; place (s_loc s)] :: rs).

(** Rows computed from JSON alone. *)
Fixpoint field (k : str) (l : list (str * json)) : json :=
  match l with [] => JNull | (x, v) :: r => if list_eq_dec ascii_dec x k then v else field k r end.
Definition cell (k : string) (j : json) : str :=
  match j with
  | JObj l => match field (lit k) l with JStr s => s | JNum z => print_int z | _ => [] end
  | _ => []
  end.
Definition elements (k : string) (j : json) : list json :=
  match j with JObj l => match field (lit k) l with JArr a => a | _ => [] end | _ => [] end.
Definition json_rows (w : what) (j : json) : list (list str) :=
  match w with
  | Ports => [[cell "direction" j; cell "name" j; cell "width" j; cell "netType" j; cell "location" j]]
  | Variables => [[cell "name" j; cell "type" j; cell "width" j; cell "kind" j; cell "drivers" j; cell "location" j]]
  | Drivers => [cell "value" j; []; []; []; cell "location" j] ::
      map (fun d => [["226"%char; "134"%char; "179"%char]; cell "range" d; cell "driver" d; cell "kind" d; cell "location" d])
          (elements "drivers" j)
  end.
Definition heading (w : what) : list str :=
  map lit match w with
          | Ports => ["Direction"; "Name"; "Width"; "Net Type"; "Location"]
          | Variables => ["Name"; "Type"; "Width"; "Kind"; "Drivers"; "Location"]
          | Drivers => ["Value"; "Range"; "Driver"; "Type"; "Location"]
          end%string.
(** The report that is asked for: the first of the three flags that is given. *)
Inductive Asked (o : toptions) : what -> Prop :=
| As_ports b : t_ports o = Some b -> Asked o Ports
| As_vars b : t_ports o = None -> t_variables o = Some b -> Asked o Variables
| As_drivers b : t_ports o = None -> t_variables o = None -> t_drivers o = Some b -> Asked o Drivers.
Definition AsTable (o : toptions) : Prop := t_format o = None \/ t_format o = Some (lit "table").
Definition AsJson (o : toptions) : Prop := t_format o = Some (lit "json").
(** The scopes to report on. *)
Definition Scopes (root : symbol) (lookupName : str -> option symbol) (o : toptions) (roots : list symbol) : Prop :=
  (t_scopes o = [] /\ roots = [root]) \/
  (t_scopes o <> [] /\ roots <> [] /\ exists ls, Forall2 (Answers root lookupName) (t_scopes o) ls /\ Firsts [] (concat ls) roots).
