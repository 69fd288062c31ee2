(* Property C65: which algorithm pygambit_ne_solver runs. *)
From Coq Require Import String List Bool Arith Lia QArith Qcanon.
Import ListNotations.
From Verif Require Import MBase MGraph MMacid MCpd MNet MProb MQuery MPolicy MGame MSub LBase.
From Verif Require PPlay PSub.
Local Open Scope string_scope.
Local Open Scope list_scope.

(* the names that are accepted, and those of the algorithms that solve games of two players only *)
Definition algorithms : list string := ["enummixed"; "enumpure"; "lcp"; "lp"; "simpdiv"; "ipa"; "gnm"].
Definition for_two_players : list string := ["enummixed"; "lcp"; "lp"].
Definition two_players (g : game) : Prop := length (g_players g) = 2%nat.

(* ---- C65 ---- *)
Theorem C65_solver : forall nash solver g,
  (* nothing asked for: all equilibria of a game of two players; otherwise the pure ones, or one mixed one if there is no pure one *)
  (solver = None -> two_players g -> pygambit_ne_solver nash solver g = Ok (nash "enummixed" g)) /\
  (solver = None -> ~ two_players g -> nash "enumpure" g <> [] -> pygambit_ne_solver nash solver g = Ok (nash "enumpure" g)) /\
  (solver = None -> ~ two_players g -> nash "enumpure" g = [] -> pygambit_ne_solver nash solver g = Ok (nash "simpdiv" g)) /\
  (* an algorithm that does not suit the game is replaced *)
  (forall a, solver = Some a -> In a for_two_players -> ~ two_players g -> pygambit_ne_solver nash solver g = Ok (nash "enumpure" g)) /\
  (* any other is run as asked for *)
  (forall a, solver = Some a -> In a algorithms -> (In a for_two_players -> two_players g) -> pygambit_ne_solver nash solver g = Ok (nash a g)) /\
  (* a name that is not known is an error *)
  (forall a, solver = Some a -> ~ In a algorithms -> pygambit_ne_solver nash solver g = Err ValueError).
Proof.
  intros nash solver g. unfold two_players, pygambit_ne_solver. destruct (Nat.eqb_spec (length (g_players g)) 2%nat) as [T|T].
  - repeat split; try (intros; contradiction).
    + intros -> _. reflexivity.
    + intros a -> Ha _. cbn [negb]. rewrite andb_false_r. unfold algorithms in Ha. repeat (destruct Ha as [<-|Ha]; [cbn; try reflexivity; destruct (nash "enumpure" g); reflexivity|]). destruct Ha.
    + intros a -> Ha. cbn [negb]. rewrite andb_false_r. destruct (String.eqb_spec a "enumpure") as [->|N]; [exfalso; apply Ha; unfold algorithms; simpl; tauto|].
      destruct (mem_spec a ["enummixed"; "lcp"; "lp"; "simpdiv"; "ipa"; "gnm"]) as [K|K]; auto. exfalso. apply Ha. unfold algorithms. simpl in *. tauto.
  - repeat split; try (intros; contradiction).
    + intros -> _ N. cbn. destruct (nash "enumpure" g); congruence.
    + intros -> _ N. cbn. rewrite N. reflexivity.
    + intros a -> Ha _. cbn [negb]. rewrite andb_true_r. unfold for_two_players in Ha. rewrite (proj2 (mem_In _ _) Ha). cbn. destruct (nash "enumpure" g); reflexivity.
    + intros a -> Ha K. cbn [negb]. rewrite andb_true_r. fold for_two_players. destruct (mem_spec a for_two_players) as [M|M]; [exfalso; auto|]. unfold algorithms in Ha. repeat (destruct Ha as [<-|Ha]; [try (exfalso; apply M; unfold for_two_players; simpl; tauto); cbn; try reflexivity; destruct (nash "enumpure" g); reflexivity|]). destruct Ha.
    + intros a -> Ha. cbn [negb]. rewrite andb_true_r. fold for_two_players. destruct (mem_spec a for_two_players) as [M|M]; [exfalso; apply Ha; unfold algorithms, for_two_players in *; simpl in *; tauto|].
      destruct (String.eqb_spec a "enumpure") as [->|N]; [exfalso; apply Ha; unfold algorithms; simpl; tauto|]. destruct (mem_spec a ["enummixed"; "lcp"; "lp"; "simpdiv"; "ipa"; "gnm"]) as [K|K]; auto. exfalso. apply Ha. unfold algorithms. simpl in *. tauto.
Qed.
Print Assumptions C65_solver.
(* hence a game that does not have two players never reaches an algorithm for two players: what those would do does not matter *)
Theorem C65_suited : forall nash nash' solver g, ~ two_players g -> (forall a, ~ In a for_two_players -> nash a g = nash' a g) ->
  pygambit_ne_solver nash solver g = pygambit_ne_solver nash' solver g.
Proof.
  intros nash nash' solver g T H. assert (E : nash "enumpure" g = nash' "enumpure" g) by (apply H; unfold for_two_players; simpl; intuition discriminate). assert (S : nash "simpdiv" g = nash' "simpdiv" g) by (apply H; unfold for_two_players; simpl; intuition discriminate).
  destruct (C65_solver nash solver g) as (_ & A2 & A3 & A4 & A5 & A6). destruct (C65_solver nash' solver g) as (_ & B2 & B3 & B4 & B5 & B6). destruct solver as [a|].
  - destruct (in_dec string_dec a algorithms) as [K|K]; [|rewrite (A6 a), (B6 a); auto]. destruct (in_dec string_dec a for_two_players) as [M|M]; [rewrite (A4 a), (B4 a), E; auto|]. rewrite (A5 a), (B5 a), H; auto; intro; contradiction.
  - destruct (nash "enumpure" g) as [|b l] eqn:F; [rewrite A3, B3, S; auto|]. rewrite A2, B2; auto; congruence.
Qed.
Print Assumptions C65_suited.
(* the exported games of a duel and of a single player *)
Definition players_of (r : result (game * list (key * nat))) : nat := match r with Ok gk => length (g_players (fst gk)) | Err _ => 0%nat end.
Lemma players_ok : forall r k, players_of r = S k -> exists gk, r = Ok gk /\ length (g_players (fst gk)) = S k.
Proof. intros [gk|e] k H; [exists gk; auto|discriminate]. Qed.
Example C65_example : (exists gk, snd (macid_to_efg (fun _ l => l) PPlay.ex_duel PPlay.ex_duel_net None None) = Ok gk /\ two_players (fst gk)) /\
  exists gk, snd (macid_to_efg (fun _ l => l) PSub.ex_solo PSub.ex_solo_net None None) = Ok gk /\ ~ two_players (fst gk).
Proof.
  split; [apply (players_ok _ 1); vm_compute; reflexivity|]. destruct (players_ok (snd (macid_to_efg (fun _ l => l) PSub.ex_solo PSub.ex_solo_net None None)) 0) as (gk & E & L); [vm_compute; reflexivity|]. exists gk. split; [exact E|]. unfold two_players. rewrite L. discriminate.
Qed.
