(* Properties C20-C21: condensed relevance graph, subgames. *)
From Coq Require Import String List Bool Arith Permutation.
Import ListNotations.
From Verif Require Import MBase MGraph MMacid MRel Spec SpecM SpecR LBase LCheck LRel PMacid.
Local Open Scope string_scope.
Local Open Scope list_scope.

(* ---- C20 ---- *)
(* so: the order in which networkx lists the strongly connected components and their members;
   o: how networkx breaks ties in topological_sort *)
Theorem C20_scc_ordering : forall so o m, valid m -> no_clash (mgraph m) -> utilities_complete m ->
  valid_components so -> valid_order o ->
  exists c ls, condensed_relevance_graph so m = Ok c /\ get_scc_topological_ordering o c = Ok ls /\
    (* every decision in exactly one component *)
    NoDup (concat ls) /\ ~ In [] ls /\ (forall d, In d (concat ls) <-> is_decision m d) /\
    (* same component = reachable from each other *)
    (forall x y, is_decision m x ->
       ((exists l, In l ls /\ In x l /\ In y l) <-> relies_on m x y /\ relies_on m y x)) /\
    (* no component precedes one it is reachable from *)
    (forall pre l post x y, ls = pre ++ l :: post -> In x l -> In y (concat post) -> ~ relies_on m y x).
Proof. exact scc_ordering_valid. Qed.
Print Assumptions C20_scc_ordering.

(* ---- C21 ---- *)
Theorem C21_subgames : forall so m, valid m -> no_clash (mgraph m) -> utilities_complete m -> valid_components so ->
  exists ss, decs_in_each_maid_subgame so m = Ok ss /\
    (forall s, In s ss -> NoDup s /\ subgame_set m s) /\
    (forall s, subgame_set m s -> exists s', In s' ss /\ same_members s' s) /\
    ForallOrdPairs (fun a b => ~ same_members a b) ss.
Proof. exact subgames_valid. Qed.
Print Assumptions C21_subgames.

(* D and E rely on each other, F relies on both, G is on its own *)
Definition ex20 : macid :=
  diagram_of (mkG ["D";"E";"F";"G";"U";"V";"W";"Y"]
                  [("D","U"); ("E","U"); ("D","V"); ("E","V"); ("F","Y"); ("E","Y"); ("G","W")])
    [("a",["D";"G"]); ("b",["E"]); ("c",["F"])] [("a",["U";"W"]); ("b",["V"]); ("c",["Y"])].
Example C20_example : valid ex20 /\ no_clash (mgraph ex20) /\ utilities_complete ex20 /\
  valid_components (@rev (list node)) /\ valid_order id_order /\
  match condensed_relevance_graph (@rev (list node)) ex20 with
  | Ok c => get_scc_topological_ordering id_order c = Ok [["F"]; ["G"]; ["D"; "E"]]
  | Err _ => False end.
Proof.
  split; [apply check_ok; vm_compute; reflexivity|]. split; [apply clash_free_ok; vm_compute; reflexivity|].
  split; [apply check_ok; vm_compute; reflexivity|]. split; [apply rev_components_valid|].
  split; [apply id_order_valid|]. vm_compute. reflexivity.
Qed.
Example C21_example :
  decs_in_each_maid_subgame (@rev (list node)) ex20 =
  Ok [["G"]; ["D"; "E"]; ["F"; "D"; "E"]; ["G"; "D"; "E"]; ["F"; "G"; "D"; "E"]].
Proof. vm_compute. reflexivity. Qed.
