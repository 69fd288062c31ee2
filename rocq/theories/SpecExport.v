(* Specification vocabulary for when a diagram can be exported as a game. *)
From Coq Require Import String List Bool Arith QArith Qcanon.
Import ListNotations.
From Verif Require Import MBase MGraph MMacid MCpd MNet MProb MQuery MGame Spec SpecM SpecC SpecN SpecQ SpecPol SpecGame.

(* v is one of the decisions sg or one of the variables they observe *)
Definition in_tree (n : net) (sg : list node) (v : node) : Prop := In v sg \/ exists d, In d sg /\ edge (ngraph n) v d.
(* what an observed variable depends on is itself a decision or observed *)
Definition closed_tree (n : net) (sg : list node) : Prop := forall u v, in_tree n sg v -> ~ In v sg -> edge (ngraph n) u v -> in_tree n sg u.
(* c gives a value to each of the decisions sg and of the variables they observe *)
Definition joint_outcome (n : net) (sg : list node) (c : list (node * outcome)) : Prop :=
  NoDup (keys c) /\ (forall v, In v (keys c) <-> in_tree n sg v) /\ in_domains n c.
(* none of these has probability zero *)
Definition all_possible (n : net) (sg : list node) : Prop := forall c, joint_outcome n sg c -> do_prob n [] c <> Q2Qc 0.
(* what the export needs to know: the decisions are decisions of the players, the players have utilities, which are not themselves
   observed, decisions left out have decision rules, and no table was given ready-made *)
Record game_data (m : macid) (n : net) (sg : list node) (ags : list agent) : Prop := mkData {
  gd_players : forall d, In d sg -> is_decision m d /\ exists a, In a ags /\ lookup d (decision_agent m) = Some a;
  gd_paid : forall a, In a ags -> exists us, lookup a (agent_utilities m) = Some us /\ us <> [] /\ forall u, In u us -> ~ in_tree n sg u;
  gd_ruled : forall d, is_decision m d -> In d sg \/ exists t, has_table n d t /\ tkind t <> KDec;
  gd_plain : forall v t, in_tree n sg v -> has_table n v t -> tkind t <> KTab;
  gd_compatible : compatible m n sg }.
