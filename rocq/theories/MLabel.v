(* The text that describes a relationship in a drawing (cpd.py 84, 133-157, 230, 250; causal_bayesian_network.py 262-269).  No proofs in this file.
   Simplification: characters are bytes. *)
From Coq Require Import String Ascii List Bool Arith ZArith.
Import ListNotations.
From Verif Require Import MBase.
Local Open Scope Z_scope.

Definition text : Type := list ascii.
Definition str (s : string) : text := list_ascii_of_string s.
Definition len (s : text) : Z := Z.of_nat (length s).

(* [external] str.find(p, start, len(s)): the first position from start on at which p occurs, or -1; a negative start counts from the end *)
Fixpoint prefixb (p s : text) : bool :=
  match p, s with
  | [], _ => true
  | a :: p', b :: s' => Ascii.eqb a b && prefixb p' s'
  | _ :: _, [] => false
  end.
Fixpoint find_from (p s : text) (k : nat) : option nat :=
  if prefixb p s then Some k else match s with [] => None | _ :: s' => find_from p s' (S k) end.
Definition place (s : text) (i : Z) : nat := Z.to_nat (if i <? 0 then len s + i else i).
Definition py_find (p s : text) (start : Z) : Z :=
  let k := place s start in
  if (length s <? k)%nat then -1 else match find_from p (skipn k s) k with Some i => Z.of_nat i | None => -1 end.
(* [external] s[i] *)
Definition py_index (s : text) (i : Z) : result ascii :=
  if (i <? - len s) then Err IndexError else match nth_error s (place s i) with Some c => Ok c | None => Err IndexError end.
(* [external] s[lo:hi] *)
Definition py_slice (s : text) (lo hi : Z) : text := let l := place s lo in let h := place s hi in firstn (h - l) (skipn l s).
(* [external] range(lo, hi) *)
Definition zrange (lo hi : Z) : list Z := map (fun k => lo + Z.of_nat k) (seq 0 (Z.to_nat (hi - lo))).

Definition opening (c : ascii) : bool := existsb (Ascii.eqb c) (str "([{").
Definition closing (c : ascii) : bool := existsb (Ascii.eqb c) (str ")]}").
Definition comma : ascii := ","%char.
(* 149-156: the loop over i *)
Fixpoint scan (s : text) (colon : Z) (is : list Z) (seen : Z) : result text :=
  match is with
  | [] => Ok (py_slice s (colon + 2) (len s))                                      (* 156 *)
  | i :: is' =>
      c <- py_index s i ;;
      let seen' := if opening c then seen + 1 else if closing c then seen - 1 else seen in   (* 150-153 *)
      if ((seen' =? 0) && Ascii.eqb c comma) || (seen' =? -1)                      (* 154 *)
      then Ok (py_slice s (colon + 2) i)                                           (* 155 *)
      else scan s colon is' seen'
  end.
(* [external] getsourcelines(f)[0][0] *)
Inductive source : Type :=
| Line (s : text)     (* the first line of the source text *)
| NoSource            (* OSError *)
| NotCode.            (* TypeError: the object is not a function, method, class, ... *)
(* the relationship as far as its label is concerned: its __name__, if it has one, and its source *)
Record callable : Type := mkCallable { c_name : option text; c_source : source }.
(* 145-157 *)
Definition label_in (variable sl : text) : result text :=
  let var_pos := py_find variable sl 0 in                                          (* 144 *)
  let lambda_pos := py_find (str "lambda") sl var_pos in                           (* 145 *)
  if -1 <? lambda_pos then                                                         (* 146 *)
    let colon := py_find (str ":") sl lambda_pos in                                (* 147 *)
    scan sl colon (zrange colon (len sl)) 0                                        (* 148-156 *)
  else Ok [].                                                                      (* 157 *)
Definition text_eqb (s t : text) : bool := prefixb s t && prefixb t s.
(* 133-157 *)
Definition compute_label (variable : text) (f : callable) : result text :=
  match (match c_name f with Some nm => if text_eqb nm (str "<lambda>") then None else Some nm | None => None end) with
  | Some nm => Ok nm                                                               (* 136-137 *)
  | None => match c_source f with
            | Line sl => label_in variable sl
            | NoSource => Ok []                                                    (* 141-142, 157 *)
            | NotCode => Err TypeError                                             (* 140, not caught *)
            end
  end.
(* 84 *)
Definition cpd_label (label : option text) (variable : text) (f : callable) : result text :=
  match label with Some l => Ok l | None => compute_label variable f end.
(* 230: label or str(dictionary); shown: str(dictionary) *)
Definition constant_label (label : option text) (shown variable : text) (f : callable) : result text :=
  cpd_label (Some (match label with Some (c :: l) => c :: l | _ => shown end)) variable f.
(* 187-194: StochasticFunctionCPD.copy gives the constructor no label; so do the copies of a ConstantCPD, which are StochasticFunctionCPDs *)
Definition copy_label (variable : text) (f : callable) : result text := cpd_label None variable f.
