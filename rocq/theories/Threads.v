(** Threads: the sweep of the distributed noised VMPS loads and dumps in two threads while the main thread updates
    (algo_mpi/vmps/two_site_update_noised_finite_vmps_mpi_impl.h 164-249).

    Instructions are those of Disk.v and Noise.v.  One instruction is one step; instructions that can run at the same time touch no
    common location unless both only read it ([safe] in ThreadsFacts.v), so finer steps would not show more.  The communication
    with the workers happens inside the update, on the main thread. *)
From Coq Require Import List Arith Lia Bool.
From Verif Require Import Base Disk TwoSite Noise.
Import ListNotations.

Section Machine.
Variables (A W : Type) (ex : A -> W -> res W).
(** a std::thread variable p: Fork = assignment of a new thread (std::terminate if p is still running), Join = p.join() *)
Inductive stmt : Type := Run (c : A) | Fork (p : nat) (q : list A) | Join (p : nat).
Record conf : Type := mkC { c_main : list stmt; c_ths : list (nat * list A); c_w : W }.
Definition drop (p : nat) (ths : list (nat * list A)) : list (nat * list A) := filter (fun t => negb (fst t =? p)) ths.
Inductive step : conf -> conf -> Prop :=
  | S_run c m ths w w' : ex c w = Ok w' -> step (mkC (Run c :: m) ths w) (mkC m ths w')
  | S_fork p q m ths w : ~ In p (map fst ths) -> step (mkC (Fork p q :: m) ths w) (mkC m (ths ++ [(p, q)]) w)
  | S_join p m ths w : In (p, []) ths -> step (mkC (Join p :: m) ths w) (mkC m (drop p ths) w)
  | S_thread m a p c q b w w' : ex c w = Ok w' -> step (mkC m (a ++ (p, c :: q) :: b) w) (mkC m (a ++ (p, q) :: b) w').
Inductive steps : conf -> conf -> Prop :=
  | steps_refl c : steps c c
  | steps_step a b c : steps a b -> step b c -> steps a c.
(** something goes wrong: an instruction fails, a running thread variable is assigned, a thread that was not started is joined *)
Inductive bad : conf -> Prop :=
  | bad_run c m ths w : (forall w', ex c w <> Ok w') -> bad (mkC (Run c :: m) ths w)
  | bad_fork p q m ths w : In p (map fst ths) -> bad (mkC (Fork p q :: m) ths w)
  | bad_join p m ths w : ~ In p (map fst ths) -> bad (mkC (Join p :: m) ths w)
  | bad_end ths w : ths <> [] -> bad (mkC [] ths w)            (* a std::thread destroyed while running *)
  | bad_thread m a p c q b w : (forall w', ex c w <> Ok w') -> bad (mkC m (a ++ (p, c :: q) :: b) w).
End Machine.
Arguments Run {A}. Arguments Fork {A}. Arguments Join {A}.

(** TwoSiteFiniteVMPSSweep, 166-249.  Thread variable 0: load_related_tens_thread, 1: dump_related_tens_thread.  The loading and dumping functions are those
    of the serial code (two_site_update_noise_finite_vmps_impl.h 559-685); lenvs and renvs have N - 1 slots here (178-179) *)
Definition right_iter (N lb rb i : nat) : list (stmt ninstr) :=
  (if i <? rb - 2 then [Fork 0 (map B (load_right3 N lb (i + 1)))] else [])
  ++ [Run (Upd3 true i (i + 2))]
  ++ (if lb <? i then [Join 1] else [])
  ++ [Fork 1 (map B (dump_right N i))]
  ++ (if i <? rb - 2 then [Join 0] else []).
Definition left_iter (N lb rb i : nat) : list (stmt ninstr) :=
  (if lb + 2 <? i then [Fork 0 (map B (load_left3 N rb (i - 1)))] else [])
  ++ [Run (Upd3 false (i - 1) (i - 2))]
  ++ (if i <? rb then [Join 1] else [])
  ++ [Fork 1 (map B (dump_left N i))]
  ++ (if lb + 2 <? i then [Join 0] else []).
Definition thr_sweep (N lb rb k : nat) : list (stmt ninstr) :=
  [Run (Start k); Run (B (NewEnvs (N - 1)))]
  ++ map (fun c => Run (B c)) (load_right3 N lb lb) ++ flat_map (right_iter N lb rb) (seq lb (rb - 1 - lb)) ++ [Join 1]
  ++ map (fun c => Run (B c)) (load_left3 N rb rb) ++ flat_map (left_iter N lb rb) (rev (seq (lb + 2) (rb - (lb + 1)))) ++ [Join 1].

(** NoisedVMPSPostProcess, 140-157: moves the center from left_boundary + 1 to site 0; DumpTen without release (finite_mps.h 115-117) *)
Definition post_prog (lb : nat) : list instr :=
  [LoadM (lb + 1)] ++ flat_map (fun s => [LoadM (s - 1); CanoR s; DumpM s false]) (rev (seq 1 (lb + 1))) ++ [DumpM 0 false].
