(* Model of analyze/effects.py.  The diagram is given by its roles m and its network n; a call returns the network as
   it leaves it.
   No proofs in this file. *)
From Coq Require Import String List Bool Arith QArith Qcanon.
Import ListNotations.
From Verif Require Import MBase MGraph MMacid MCpd MNet MProb MQuery.
Local Open Scope Qc_scope.

(* cid.expected_value([x], {}, intervention={a: v})[0] *)
Definition effect_term (o : order) (m : macid) (n : net) (a x : node) (v : outcome) : net * result Qc :=
  let '(n', r) := macid_expected_value o m n [x] [] [(a, v)] in
  (n', l <- r ;; match nth_error l 0 with Some e => Ok e | None => Err IndexError end).
(* effects.py 4-9 *)
Definition total_effect (o : order) (m : macid) (n : net) (a x : node) (a0 a1 : outcome) : net * result Qc :=
  let '(n1, r1) := effect_term o m n a x a1 in
  match r1 with
  | Err e => (n1, Err e)
  | Ok e1 => let '(n0, r0) := effect_term o m n1 a x a0 in (n0, e0 <- r0 ;; Ok (e1 - e0))
  end.
(* effects.py 12-21 *)
Definition introduced_total_effect (o : order) (m : macid) (n : net) (a d y : node) (a0 a1 : outcome) (adapt : bool) : net * result Qc :=
  let '(n1, r1) := total_effect o m n a d a0 a1 in
  match r1 with
  | Err e => (n1, Err e)
  | Ok te_d =>
    let '(n2, r2) := total_effect o m n1 a y a0 a1 in
    (n2, te_y <- r2 ;;
         if negb (qleb 0 te_y) && adapt then Ok (- te_d - - te_y) else Ok (te_d - te_y))
  end.
