(* Model of analyze/reasoning_patterns.py, line 31: the test for effective undirected paths.  No proofs in this file. *)
From Coq Require Import String List Bool.
Import ListNotations.
From Verif Require Import MBase MGraph MPaths MMacid MPatterns.

(* 31-33: _effective_undir_path_exists *)
Definition effective_undir_path_exists (o : order) (m : macid) (s t : node) (E : list node) : result bool :=
  ps <- find_all_undir_paths o (mgraph m) s t ;; Ok (existsb (path_is_effective m E) ps).
