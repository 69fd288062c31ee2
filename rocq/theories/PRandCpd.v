(* Property C54: reproducibility of RandomCPD. *)
From Coq Require Import String List Bool Arith ZArith QArith Qcanon Lia Permutation.
Import ListNotations.
From Verif Require Import MBase MCpd MRandCpd.
Local Open Scope string_scope.
Local Open Scope list_scope.
Local Open Scope Z_scope.

(* a hash of a frozenset does not see the order of the items *)
Definition set_hash (hash : list (node * outcome) -> Z) : Prop := forall l l', Permutation l l' -> hash l = hash l'.

(* ---- C54 ---- *)
(* with a seed other than 0, within one process: the same answer for every pair of objects made with the same arguments, whatever the
   state of numpy's generator when they are made and called, and in whatever order the parent values are given; the
   generator is left as it was, also when the call raises *)
Theorem C54_seeded_partial : forall (S : Type) (np : numpy S) hash st1 st2 st3 st4 dom sm s pv pv', set_hash hash -> s <> 0 -> Permutation pv pv' ->
  fst (call_random_cpd np hash st3 (fst (new_random_cpd np st1 dom sm (Some s))) pv) = fst (call_random_cpd np hash st4 (fst (new_random_cpd np st2 dom sm (Some s))) pv') /\
  snd (new_random_cpd np st1 dom sm (Some s)) = st1 /\
  forall c, snd (call_random_cpd np hash st3 c pv) = st3.
Proof.
  intros S np hash st1 st2 st3 st4 dom sm s pv pv' Hh Hs P. unfold new_random_cpd. apply Z.eqb_neq in Hs. rewrite Hs. cbn [fst snd]. split; [|split; auto].
  - unfold call_random_cpd. rewrite (Hh pv pv' P). destruct (np_seed np _) as [st|e]; auto. destruct (dirichlet np st _) as [[v|e] st']; auto.
  - intro c. unfold call_random_cpd. destruct (np_seed np _) as [st|e]; auto. destruct (dirichlet np st _) as [[v|e] st']; auto.
Qed.
Print Assumptions C54_seeded_partial.
(* seeds from 1 to 2^31 are never out of numpy's range: the call returns what the Dirichlet draw returns *)
Theorem C54_range_partial : forall (S : Type) (np : numpy S) hash st c pv, 1 <= rc_seed c <= 2 ^ 31 ->
  exists s, 0 <= s < 2 ^ 32 /\ fst (call_random_cpd np hash st c pv) = (l <- fst (dirichlet np (seeded np s) (map (fun _ => rc_smoothness c) (rc_domain c))) ;; Ok (combine (rc_domain c) l)).
Proof.
  intros S np hash st c pv H. unfold call_random_cpd, np_seed. assert (K := Z.mod_pos_bound (hash pv) (2 ^ 31) eq_refl).
  replace ((0 <=? rc_seed c + hash pv mod 2 ^ 31 - 1) && (rc_seed c + hash pv mod 2 ^ 31 - 1 <? 2 ^ 32)) with true.
  - exists (rc_seed c + hash pv mod 2 ^ 31 - 1). split; [change (2 ^ 32) with (2 * 2 ^ 31); lia|]. destruct (dirichlet np _ _) as [[v|e] st']; reflexivity.
  - symmetry. apply andb_true_iff. split; [apply Z.leb_le; lia|apply Z.ltb_lt]. change (2 ^ 32) with (2 * 2 ^ 31). lia.
Qed.
Print Assumptions C54_range_partial.
(* a generator whose state is the last seed: the draw depends on the seed *)
Definition toy : numpy Z := mkNumpy Z (fun s => s) (fun st l => (Ok (map (fun _ => Q2Qc (inject_Z st)) l), st + 1)) (fun st k => (st mod k, st + 1)).
(* seed 0 counts as no seed: the two objects get whatever the generator gives *)
Theorem C54_zero_seed_refuted : exists (S : Type) (np : numpy S) hash st1 st2 dom sm pv, set_hash hash /\
  fst (call_random_cpd np hash st1 (fst (new_random_cpd np st1 dom sm (Some 0))) pv) <> fst (call_random_cpd np hash st1 (fst (new_random_cpd np st2 dom sm (Some 0))) pv).
Proof.
  exists Z, toy, (fun _ => 7), 1, 2, None, (Q2Qc 1), []. split; [intros l l' _; auto|]. vm_compute. intro K. discriminate K.
Qed.
Print Assumptions C54_zero_seed_refuted.
(* Python's hash of strings differs between processes, and the distribution with it *)
Theorem C54_process_refuted : exists (S : Type) (np : numpy S) hash1 hash2 st dom sm s pv, set_hash hash1 /\ set_hash hash2 /\ s <> 0 /\
  fst (call_random_cpd np hash1 st (fst (new_random_cpd np st dom sm (Some s))) pv) <> fst (call_random_cpd np hash2 st (fst (new_random_cpd np st dom sm (Some s))) pv).
Proof.
  exists Z, toy, (fun _ => 7), (fun _ => 8), 1, None, (Q2Qc 1), 5, [("A"%string, Q2Qc 1)]. split; [intros l l' _; auto|]. split; [intros l l' _; auto|]. split; [discriminate|]. vm_compute. intro K. discriminate K.
Qed.
Print Assumptions C54_process_refuted.
(* an object without a seed can draw 0, and then a hash divisible by 2^31 makes the call raise ValueError *)
Theorem C54_unseeded_raises_refuted : exists (S : Type) (np : numpy S) hash st dom sm pv, set_hash hash /\
  fst (call_random_cpd np hash st (fst (new_random_cpd np st dom sm None)) pv) = Err ValueError.
Proof. exists Z, toy, (fun _ => 2 ^ 31), 0, None, (Q2Qc 1), []. split; [intros l l' _; auto|]. vm_compute. reflexivity. Qed.
Print Assumptions C54_unseeded_raises_refuted.
Example C54_example : set_hash (fun l => Z.of_nat (length l)) /\ Permutation [("A", Q2Qc 1); ("B", Q2Qc 0)] [("B", Q2Qc 0); ("A", Q2Qc 1)] /\
  is_ok (fst (call_random_cpd toy (fun l => Z.of_nat (length l)) 3 (fst (new_random_cpd toy 9 None (Q2Qc 1) (Some 5))) [("A", Q2Qc 1); ("B", Q2Qc 0)])) = true.
Proof. split; [intros l l' P; rewrite (Permutation_length P); auto|]. split; [apply perm_swap|vm_compute; reflexivity]. Qed.
