(** Model of include/common/Wildcard.hpp, of toString(DriverBitRange)
    (include/netlist/DriverBitRange.hpp) and of parseNameAndRange
    (tools/driver/driver.cpp). *)
From Coq Require Import Ascii String.
From Verif Require Import Base M_Range M_Netlist.

(** Characters with a meaning. *)
Definition c_dot : ascii := "."%char.
Definition c_star : ascii := "*"%char.
Definition c_q : ascii := "?"%char.
Definition c_open : ascii := "["%char.
Definition c_close : ascii := "]"%char.
Definition c_colon : ascii := ":"%char.
Definition c_minus : ascii := "-"%char.
Definition aeq (a b : ascii) : bool := Ascii.eqb a b.

(** C strings are lists of non-NUL characters; reading the terminator is the empty
    list.  Every look-ahead in the code is guarded by [&&], so it never reads past
    the terminator. *)

(** [p[0]=='*' && p[1]=='*'] or [p[0..2]=="..."], Wildcard.hpp 37-38 and 45-50:
    what follows the recursive wildcard at the start of [p]. *)
Definition recur (p : str) : option str :=
  match p with
  | a :: b :: r =>
      if aeq a c_star && aeq b c_star then Some r
      else match r with
           | c :: r' => if aeq a c_dot && aeq b c_dot && aeq c c_dot then Some r' else None
           | [] => None
           end
  | _ => None
  end.

(** Lines 33-55: hasLead, hasTrail and rest when a recursive wildcard is present. *)
Definition recur_token (p : str) : option (bool * bool * str) :=
  let trail lead r :=
    match r with
    | c :: r' => if aeq c c_dot then Some (lead, true, r') else Some (lead, false, r)
    | [] => Some (lead, false, r)
    end in
  match p with
  | c :: q =>
      match (if aeq c c_dot then recur q else None) with
      | Some r => trail true r
      | None => match recur p with Some r => trail false r | None => None end
      end
  | [] => None
  end.

(** "if (a) return true; b": results are [option bool], [None] = out of fuel. *)
Definition orelse (a b : option bool) : option bool :=
  match a with Some true => Some true | Some false => b | None => None end.

(** The text loops, with [k] the recursive call on the rest of the pattern:
    113-121 and 86-94 (try every suffix); 67-73 and 103-109 (try after every dot);
    127-135 (try every suffix up to the first dot). *)
Fixpoint any_suffix (k : str -> option bool) (t : str) : option bool :=
  orelse (k t) (match t with [] => Some false | _ :: t' => any_suffix k t' end).
Fixpoint after_dots (k : str -> option bool) (t : str) : option bool :=
  match t with
  | [] => Some false
  | c :: t' => if aeq c c_dot then orelse (k t') (after_dots k t') else after_dots k t'
  end.
Fixpoint any_segment (k : str -> option bool) (t : str) : option bool :=
  orelse (k t) (match t with
                | [] => Some false
                | c :: t' => if aeq c c_dot then Some false else any_segment k t'
                end).

(** wildcardMatch, 28-155; one unit of fuel per recursive call or loop iteration. *)
Fixpoint wm (fuel : nat) (text pat : str) : option bool :=
  match fuel with
  | O => None
  | S f =>
    match pat with
    | [] => Some (match text with [] => true | _ => false end)
    | c :: p' =>
      match recur_token pat with
      | Some (true, true, rest) =>                                  (* 57-74 *)
          match text with
          | d :: t' => if aeq d c_dot
                       then orelse (wm f t' rest) (after_dots (fun t => wm f t rest) t')
                       else Some false
          | [] => Some false
          end
      | Some (true, false, rest) =>                                 (* 76-95 *)
          orelse (wm f text rest)
            (match text with
             | d :: t' => if aeq d c_dot then any_suffix (fun t => wm f t rest) t' else Some false
             | [] => Some false
             end)
      | Some (false, true, rest) =>                                 (* 97-110 *)
          orelse (wm f text rest) (after_dots (fun t => wm f t rest) text)
      | Some (false, false, rest) => any_suffix (fun t => wm f t rest) text    (* 113-121 *)
      | None =>
          if aeq c c_star then any_segment (fun t => wm f t p') text           (* 124-136 *)
          else if aeq c c_q then                                               (* 138-146 *)
            match text with
            | d :: t' => if aeq d c_dot then Some false else wm f t' p'
            | [] => Some false
            end
          else                                                                 (* 148-152 *)
            match text with
            | d :: t' => if aeq c d then wm f t' p' else Some false
            | [] => Some false
            end
      end
    end
  end.
Definition wildcardMatch (text pat : str) : option bool := wm (S (List.length pat)) text pat.

(** pathInScope, 161-166. *)
Definition pathInScope (path scope : str) : bool :=
  if Nat.ltb (List.length path) (List.length scope)
     || negb (str_eqb (firstn (List.length scope) path) scope)
  then false
  else Nat.eqb (List.length path) (List.length scope)
       || match skipn (List.length scope) path with c :: _ => aeq c c_dot | [] => false end.

(** ** Integers as text *)
Local Open Scope Z_scope.

(** fmt "{}" of an int32 (external): optional '-', then decimal digits without
    leading zeros. *)
Definition digit (d : Z) : ascii := ascii_of_nat (48 + Z.to_nat d).
Fixpoint udigits (fuel : nat) (n : Z) (acc : str) : str :=
  match fuel with
  | O => acc
  | S k => let acc' := digit (n mod 10) :: acc in
           if n <? 10 then acc' else udigits k (n / 10) acc'
  end.
Definition print_nonneg (n : Z) : str := udigits (S (Z.to_nat (Z.log2 n))) n [].
Definition print_int (z : Z) : str :=
  if z <? 0 then c_minus :: print_nonneg (- z) else print_nonneg z.

(** toString(DriverBitRange), DriverBitRange.hpp 46-51. *)
Definition range_toString (r : range) : str :=
  if lower r =? upper r then c_open :: print_int (lower r) ++ [c_close]
  else c_open :: print_int (upper r) ++ c_colon :: print_int (lower r) ++ [c_close].

(** std::from_chars<int32_t> (external) restricted to the case where the whole text
    must be consumed, driver.cpp 500-508: optional '-', one or more digits, value
    representable. *)
Definition digit_val (c : ascii) : option Z :=
  let v := Z.of_nat (nat_of_ascii c) - 48 in
  if (0 <=? v) && (v <=? 9) then Some v else None.
Fixpoint digits_val (acc : Z) (s : str) : option Z :=
  match s with
  | [] => Some acc
  | c :: r => match digit_val c with
              | Some v => digits_val (10 * acc + v) r
              | None => None
              end
  end.
Definition parse_nat (s : str) : option Z := match s with [] => None | _ => digits_val 0 s end.
Definition parseInt (s : str) : option Z :=
  let raw := match s with
             | c :: r => if aeq c c_minus then option_map Z.opp (parse_nat r) else parse_nat s
             | [] => None
             end in
  match raw with
  | Some v => if is_int32 v then Some v else None
  | None => None
  end.

(** rfind and find: split at the last / first occurrence of a character. *)
Fixpoint split_first (c : ascii) (s : str) : option (str * str) :=
  match s with
  | [] => None
  | d :: r => if aeq d c then Some ([], r)
              else option_map (fun x => (d :: fst x, snd x)) (split_first c r)
  end.
Fixpoint split_last (c : ascii) (s : str) : option (str * str) :=
  match s with
  | [] => None
  | d :: r => match split_last c r with
              | Some (a, b) => Some (d :: a, b)
              | None => if aeq d c then Some ([], r) else None
              end
  end.

(** parseNameAndRange, driver.cpp 496-531. *)
Definition parseNameAndRange (spec : str) : str * option range :=
  let whole := (spec, None) in
  match spec with
  | [] => whole
  | _ =>
    if negb (aeq (last spec " "%char) c_close) then whole
    else match split_last c_open spec with
         | None => whole
         | Some (path, tail) =>
             let inner := removelast tail in
             match split_first c_colon inner with
             | None => match parseInt inner with
                       | Some b => (path, Some (Range b b))
                       | None => whole
                       end
             | Some (h, l) => match parseInt h, parseInt l with
                              | Some hi, Some lo => (path, Some (Range hi lo))
                              | _, _ => whole
                              end
             end
         end
  end.
