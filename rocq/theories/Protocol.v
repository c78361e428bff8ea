(** The order protocol of the distributed algorithms: the sequence of collective calls of the master, and the workers' interpreters.

    One event is one collective call (a broadcast, a barrier) or one complete point-to-point exchange (a farm of Farm.v, Farm2.v, Gather.v,
    the answers to program_start, the distributed SVD).  The master's trace carries the contents it broadcasts; the worker is a state
    machine that consumes the events.  A collective call that does not meet the same collective call of the worker is [Abort].
    Tensors are elements of [X]; an exchange carries the operands the master assumes, the worker logs the operands it uses. *)
From Coq Require Import List Arith Bool.
From Verif Require Import Base.
Import ListNotations.

(** mps_algo_order.h 25-40 *)
Inductive order : Type :=
  | program_start | init_grow_env | init_grow_env_grow | init_grow_env_finish | lanczos | svd | lanczos_mat_vec_dynamic
  | lanczos_mat_vec_static | lanczos_finish | contract_for_right_moving_expansion | contract_for_left_moving_expansion
  | growing_left_env | growing_right_env | program_final.
Inductive farm : Type := FMul | FExpR | FExpL | FEnvL | FEnvR | FBlock | FDyn | FStat | FGrowL | FGrowR.

Section Protocol.
Variable X : Type.
Inductive event : Type :=
  | EOrd (o : order)
  | EReply                                   (* every worker sends its rank *)
  | ENum (n : nat)                           (* broadcast of an integer *)
  | ETen (x : X)                             (* broadcast of a tensor *)
  | ENoise                                   (* broadcast of the noise *)
  | EBar
  | EFarm (k : farm) (xs : list X)
  | ESvd.
Definition is_farm (e : event) : list (farm * list X) := match e with EFarm k xs => [(k, xs)] | _ => [] end.
Definition farms (t : list event) : list (farm * list X) := flat_map is_farm t.
Variables (N : nat) (mpo : nat -> X).

(** ** The master of the VMPS *)
(** one update: the environments of the two sites, the states that are multiplied (the first one and those of the further iterations),
    the state that is expanded if there is an expansion, the new tensor of the site that is left *)
Record upd_data : Type := { u_lenv : X; u_renv : X; u_first : X; u_more : list X; u_exp : option X; u_mps : X }.
(** lanczos_solver_mpi_master.h 254-351, Bcast at 267: MPI_Bcast of the state, then the exchange *)
Definition m_mul (l : nat) (u : upd_data) (x : X) : list event := [ETen x; EFarm FMul [u_lenv u; mpo l; mpo (l + 1); u_renv u; x]].
(** lanczos_solver_mpi_master.h 48-235 (62-63, 140, 167, 182, 226) and (tdvp) lanczos_expmv_solver_mpi.h 32-200: any number of further multiplications;
    every way out of the solver broadcasts lanczos_finish once *)
Definition m_lanczos (l : nat) (u : upd_data) : list event :=
  [ETen (u_lenv u); ETen (u_renv u)] ++ m_mul l u (u_first u)
  ++ flat_map (fun x => EOrd lanczos_mat_vec_dynamic :: m_mul l u x) (u_more u) ++ [EOrd lanczos_finish].
(** two_site_update_noised_finite_vmps_mpi_impl.h 366-391, 479-597, 710-827 *)
Definition m_expand (right : bool) (l : nat) (u : upd_data) : list event :=
  match u_exp u with
  | None => []
  | Some gs => if right
      then [EOrd contract_for_right_moving_expansion; ETen gs; ENoise; EFarm FExpR [u_lenv u; mpo l; mpo (l + 1); gs]]
      else [EOrd contract_for_left_moving_expansion; ETen gs; ENoise; EFarm FExpL [u_renv u; mpo (l + 1); mpo l; gs]]
  end.
(** env_ten_update_master.h 39-113, 115-199 *)
Definition m_grow_left (l : nat) (u : upd_data) : list event := [EOrd growing_left_env; ETen (u_mps u); EFarm FEnvL [u_lenv u; mpo l; u_mps u]].
Definition m_grow_right (l : nat) (u : upd_data) : list event := [EOrd growing_right_env; ETen (u_mps u); EBar; EFarm FEnvR [u_renv u; mpo (l + 1); u_mps u]].
(** MasterTwoSiteFiniteVMPSUpdate (two_site_update_finite_vmps_mpi_impl_master.h 167-336 and the noised one 251-476).  l: the left site *)
Definition m_update (right : bool) (l : nat) (u : upd_data) : list event :=
  [EOrd lanczos; ENum l] ++ m_lanczos l u ++ m_expand right l u ++ [EOrd svd; ESvd] ++ (if right then m_grow_left l u else m_grow_right l u).
(** one sweep, two_site_update_finite_vmps_mpi_impl_master.h 132-165: to the right i = lb .. rb-2, to the left i = rb .. lb+2 *)
Definition m_sweep (lb rb : nat) (d : bool -> nat -> upd_data) : list event :=
  flat_map (fun i => m_update true i (d true i)) (seq lb (rb - 1 - lb))
  ++ flat_map (fun i => m_update false (i - 1) (d false i)) (rev (seq (lb + 2) (rb + 1 - (lb + 2)))).
(** vmps_mpi_init_master.h 135-187: i = 1 .. N - (lb + 2) *)
Definition m_init (lb : nat) (env mps : nat -> X) : list event :=
  [EOrd init_grow_env]
  ++ flat_map (fun i => [EOrd init_grow_env_grow; ETen (mpo (N - i)); ETen (env i); ETen (mps i); EBar; EFarm FEnvR [env i; mpo (N - i); mps i]]) (seq 1 (N - (lb + 2)))
  ++ [EOrd init_grow_env_finish].
(** MasterTwoSiteFiniteVMPS 91-130, MasterTwoSiteFiniteVMPSWithNoise 82-141 with vmps_mpi_init_master.h 119-123; [need]: the environments are not on disk *)
Definition m_vmps (need : bool) (lb rb sweeps : nat) (env mps : nat -> X) (d : nat -> bool -> nat -> upd_data) : list event :=
  [EOrd program_start; EReply] ++ (if need then m_init lb env mps else []) ++ flat_map (fun s => m_sweep lb rb (d s)) (seq 1 sweeps) ++ [EOrd program_final].
(** ** The master of the TDVP: two_site_update_finite_tdvp_mpi_impl_master.h 79-237, 239-380; environments at the start and the last update of a
    sweep are computed by the master alone *)
Definition m_tdvp_sweep (d : bool -> nat -> upd_data) : list event :=
  flat_map (fun i => m_update true i (d true i)) (seq 0 (N - 2)) ++ flat_map (fun i => m_update false (i - 1) (d false i)) (rev (seq 2 (N - 2))).
Definition m_tdvp (steps : nat) (d : nat -> bool -> nat -> upd_data) : list event :=
  [EOrd program_start; EReply] ++ flat_map (fun s => m_tdvp_sweep (d s)) (seq 0 steps) ++ [EOrd program_final].

(** ** The worker of the VMPS (two_site_update_finite_vmps_mpi_impl_slave.h 37-98) and of the TDVP (tdvp = true,
    two_site_update_finite_tdvp_mpi_impl_slave.h 23-85) *)
Inductive wctl : Type :=
  | CTop                                     (* SlaveGetBroadcastOrder at 50 *)
  | CReply
  | CInit | CInitMpo | CInitEnv (m : X) | CInitMps (m e : X) | CInitBar (m e x : X) | CInitFarm (m e x : X)  (* vmps_mpi_init_slave.h 18-27, env_ten_update_slave.h 215-222 *)
  | CSite | CLenv | CRenv | CMul | CMulFarm (x : X) | CMulOrd     (* 57-66, lanczos_solver_mpi_slave.h 36-60 *)
  | CSvd
  | CExp (right : bool) | CExpNum (right : bool) (x : X) | CExpFarm (right : bool) (x : X)
  | CGrowL | CGrowLFarm (x : X)
  | CGrowR | CGrowRBar (x : X) | CGrowRFarm (x : X)
  | CDone.
(** the heap holds the tensors made with new; eff_ham[0] and [3] are pointers into it (None: the null pointer of the vector),
    eff_ham[1] and [2] point to MPO tensors *)
Record worker : Type := {
  w_ctl : wctl; w_heap : list (nat * X); w_fresh : nat;
  w_p0 : option nat; w_p3 : option nat; w_m1 : option nat; w_m2 : option nat;
  w_new : nat; w_del : nat;                  (* calls of new and delete *)
  w_lost : nat;                              (* "cannot understand the order" *)
  w_log : list (farm * list X) }.
Definition worker0 : worker := {| w_ctl := CTop; w_heap := []; w_fresh := 0; w_p0 := None; w_p3 := None; w_m1 := None; w_m2 := None; w_new := 0; w_del := 0; w_lost := 0; w_log := [] |}.
Definition goto (w : worker) (c : wctl) : worker :=
  {| w_ctl := c; w_heap := w_heap w; w_fresh := w_fresh w; w_p0 := w_p0 w; w_p3 := w_p3 w; w_m1 := w_m1 w; w_m2 := w_m2 w; w_new := w_new w; w_del := w_del w; w_lost := w_lost w; w_log := w_log w |}.
Definition lost (w : worker) : worker :=
  {| w_ctl := CTop; w_heap := w_heap w; w_fresh := w_fresh w; w_p0 := w_p0 w; w_p3 := w_p3 w; w_m1 := w_m1 w; w_m2 := w_m2 w; w_new := w_new w; w_del := w_del w; w_lost := w_lost w + 1; w_log := w_log w |}.
Definition logged (w : worker) (c : wctl) (k : farm) (xs : list X) : worker :=
  {| w_ctl := c; w_heap := w_heap w; w_fresh := w_fresh w; w_p0 := w_p0 w; w_p3 := w_p3 w; w_m1 := w_m1 w; w_m2 := w_m2 w; w_new := w_new w; w_del := w_del w; w_lost := w_lost w; w_log := w_log w ++ [(k, xs)] |}.
(** a dereferenced pointer must be alive *)
Definition lookup (h : list (nat * X)) (p : nat) : option X := match find (fun c => fst c =? p) h with Some c => Some (snd c) | None => None end.
Definition deref (w : worker) (p : option nat) : res X := match p with Some p => match lookup (w_heap w) p with Some x => Ok x | None => Ub end | None => Ub end.
(** receiving into a tensor *)
Definition store (w : worker) (p : option nat) (x : X) (c : wctl) : res worker :=
  let! _ := deref w p in
  match p with
  | Some p => Ok {| w_ctl := c; w_heap := map (fun e => if fst e =? p then (p, x) else e) (w_heap w); w_fresh := w_fresh w; w_p0 := w_p0 w; w_p3 := w_p3 w; w_m1 := w_m1 w; w_m2 := w_m2 w; w_new := w_new w; w_del := w_del w; w_lost := w_lost w; w_log := w_log w |}
  | None => Ub
  end.
(** delete: nothing for the null pointer; undefined for a pointer that is not alive *)
Definition delete (w : worker) (p : option nat) : res worker :=
  match p with
  | None => Ok w
  | Some q => match lookup (w_heap w) q with
      | Some _ => Ok {| w_ctl := w_ctl w; w_heap := filter (fun e => negb (fst e =? q)) (w_heap w); w_fresh := w_fresh w; w_p0 := w_p0 w; w_p3 := w_p3 w; w_m1 := w_m1 w; w_m2 := w_m2 w; w_new := w_new w; w_del := w_del w + 1; w_lost := w_lost w; w_log := w_log w |}
      | None => Ub end
  end.
Variable x0 : X.                             (* the default tensor *)
(** 60-64: eff_ham[0] = new, [1] = &mpo[lsite], [2] = &mpo[rsite], [3] = new; mpo[i] is undefined beyond the end *)
Definition alloc (w : worker) (l : nat) : res worker :=
  if l + 1 <? N then
    Ok {| w_ctl := CLenv; w_heap := (w_fresh w + 1, x0) :: (w_fresh w, x0) :: w_heap w; w_fresh := w_fresh w + 2; w_p0 := Some (w_fresh w); w_p3 := Some (w_fresh w + 1); w_m1 := Some l; w_m2 := Some (l + 1);
          w_new := w_new w + 2; w_del := w_del w; w_lost := w_lost w; w_log := w_log w |}
  else Ub.
Definition mpo_at (m : option nat) : res X := match m with Some i => Ok (mpo i) | None => Ub end.
Variable tdvp : bool.
Definition w_order (w : worker) (o : order) : res worker :=
  match o with
  | program_start => Ok (goto w CReply)
  | init_grow_env => if tdvp then Ok (lost w) else Ok (goto w CInit)
  | lanczos => Ok (goto w CSite)
  | svd => Ok (goto w CSvd)
  | contract_for_right_moving_expansion => if tdvp then Abort else Ok (goto w (CExp true))
  | contract_for_left_moving_expansion => if tdvp then Abort else Ok (goto w (CExp false))
  | growing_left_env => let! w := delete w (w_p3 w) in Ok (goto w CGrowL)
  | growing_right_env => let! w := delete w (w_p0 w) in Ok (goto w CGrowR)
  | program_final => Ok (goto w CDone)
  | _ => Ok (lost w)
  end.
Definition wstep (w : worker) (e : event) : res worker :=
  match w_ctl w, e with
  | CTop, EOrd o => w_order w o
  | CReply, EReply => Ok (goto w CTop)
  | CInit, EOrd init_grow_env_finish => Ok (goto w CTop)
  | CInit, EOrd init_grow_env_grow => Ok (goto w CInitMpo)
  | CInit, EOrd _ => Abort                                                   (* assert *)
  | CInitMpo, ETen m => Ok (goto w (CInitEnv m))
  | CInitEnv m, ETen x => Ok (goto w (CInitMps m x))
  | CInitMps m v, ETen x => Ok (goto w (CInitBar m v x))
  | CInitBar m v x, EBar => Ok (goto w (CInitFarm m v x))
  | CInitFarm m v x, EFarm FEnvR _ => Ok (logged w CInit FEnvR [v; m; x])
  | CSite, ENum l => alloc w l
  | CLenv, ETen x => store w (w_p0 w) x CRenv
  | CRenv, ETen x => store w (w_p3 w) x CMul
  | CMul, ETen x => Ok (goto w (CMulFarm x))
  | CMulFarm x, EFarm FMul _ =>
      let! a := deref w (w_p0 w) in let! b := mpo_at (w_m1 w) in let! c := mpo_at (w_m2 w) in let! d := deref w (w_p3 w) in
      Ok (logged w CMulOrd FMul [a; b; c; d; x])
  | CMulOrd, EOrd lanczos_mat_vec_dynamic => Ok (goto w CMul)
  | CMulOrd, EOrd lanczos_finish => Ok (goto w CTop)
  | CMulOrd, EOrd _ => Abort                                                 (* assert *)
  | CSvd, ESvd => Ok (goto w CTop)
  | CExp r, ETen x => Ok (goto w (CExpNum r x))
  | CExpNum r x, ENoise => Ok (goto w (CExpFarm r x))
  | CExpFarm true x, EFarm FExpR _ => let! a := deref w (w_p0 w) in let! b := mpo_at (w_m1 w) in let! c := mpo_at (w_m2 w) in Ok (logged w CTop FExpR [a; b; c; x])
  | CExpFarm false x, EFarm FExpL _ => let! a := deref w (w_p3 w) in let! b := mpo_at (w_m2 w) in let! c := mpo_at (w_m1 w) in Ok (logged w CTop FExpL [a; b; c; x])
  | CGrowL, ETen x => Ok (goto w (CGrowLFarm x))
  | CGrowLFarm x, EFarm FEnvL _ => let! a := deref w (w_p0 w) in let! b := mpo_at (w_m1 w) in let! w := delete (logged w CTop FEnvL [a; b; x]) (w_p0 w) in Ok w
  | CGrowR, ETen x => Ok (goto w (CGrowRBar x))
  | CGrowRBar x, EBar => Ok (goto w (CGrowRFarm x))
  | CGrowRFarm x, EFarm FEnvR _ => let! a := deref w (w_p3 w) in let! b := mpo_at (w_m2 w) in let! w := delete (logged w CTop FEnvR [a; b; x]) (w_p3 w) in Ok w
  | _, _ => Abort
  end.
Fixpoint wrun (w : worker) (t : list event) : res worker := match t with [] => Ok w | e :: t => let! w := wstep w e in wrun w t end.

(** ** DMRG *)
(** one update: the terms of the effective Hamiltonian and their number, the states multiplied, the new tensor *)
Record dupd : Type := { d_terms : X; d_num : nat; d_first : X; d_more : list X; d_mps : X }.
(** lanczos_dmrg_solver_mpi_master.h 40-178: the first multiplication distributes the terms, the others use them *)
Definition dm_lanczos (u : dupd) : list event :=
  [EOrd lanczos_mat_vec_dynamic; ENum (d_num u); ETen (d_first u); EFarm FDyn [d_terms u; d_first u]]
  ++ flat_map (fun x => [EOrd lanczos_mat_vec_static; ETen x; EFarm FStat [d_terms u; x]]) (d_more u) ++ [EOrd lanczos_finish].
(** dmrg_mpi_impl_master.h 182-275, 640-670 *)
Definition dm_update (right : bool) (l : nat) (u : dupd) : list event :=
  [EOrd lanczos; ENum l] ++ dm_lanczos u ++ [EOrd svd; ESvd]
  ++ [EOrd (if right then growing_left_env else growing_right_env); ETen (d_mps u); EFarm (if right then FGrowL else FGrowR) [d_terms u; d_mps u]].
(** 143-167 *)
Definition dm_sweep (lb rb : nat) (d : bool -> nat -> dupd) : list event :=
  flat_map (fun i => dm_update true i (d true i)) (seq lb (rb - 1 - lb)) ++ flat_map (fun i => dm_update false (i - 1) (d false i)) (rev (seq (lb + 2) (rb - (lb + 1)))).
(** 396-473: InitBlockOps_ or only the order to finish *)
Definition dm_init (need : bool) (lb : nat) (num : nat -> nat) (mps : nat -> X) : list event :=
  (if need then flat_map (fun i => [EOrd init_grow_env_grow; ENum (num i); ETen (mps i); EFarm FBlock [mps i]]) (seq 1 (N - (lb + 2))) else []) ++ [EOrd init_grow_env_finish].
(** 121-141 *)
Definition dm_run (need : bool) (lb rb sweeps : nat) (num : nat -> nat) (mps : nat -> X) (d : nat -> bool -> nat -> dupd) : list event :=
  [EOrd program_start] ++ dm_init need lb num mps ++ flat_map (fun s => dm_sweep lb rb (d s)) (seq 1 sweeps) ++ [EOrd program_final].

(** dmrg_mpi_impl_slave.h 78-125, 240-251.  dw_ops: the terms whose operators are kept in block_site_ops_, site_block_ops_, ops_num_table_ *)
Inductive dctl : Type :=
  | BStart | BInit | BInitNum | BInitMps | BInitFarm (x : X)
  | BTop | BSite | BDyn | BDynNum | BDynTen | BDynFarm (x : X) | BOrd | BStat | BStatFarm (x : X) | BSvd | BGrow (right : bool) | BGrowFarm (right : bool) (x : X) | BDone.
Record dworker : Type := { dw_ctl : dctl; dw_ops : option X; dw_lost : nat; dw_log : list (farm * list X) }.
Definition dworker0 : dworker := {| dw_ctl := BStart; dw_ops := None; dw_lost := 0; dw_log := [] |}.
Definition dgo (w : dworker) (c : dctl) : dworker := {| dw_ctl := c; dw_ops := dw_ops w; dw_lost := dw_lost w; dw_log := dw_log w |}.
Definition dkeep (w : dworker) (c : dctl) (t : X) : dworker := {| dw_ctl := c; dw_ops := Some t; dw_lost := dw_lost w; dw_log := dw_log w |}.
Definition dlog (w : dworker) (c : dctl) (k : farm) (xs : list X) : dworker := {| dw_ctl := c; dw_ops := dw_ops w; dw_lost := dw_lost w; dw_log := dw_log w ++ [(k, xs)] |}.
Definition dlost (w : dworker) : dworker := {| dw_ctl := BTop; dw_ops := dw_ops w; dw_lost := dw_lost w + 1; dw_log := dw_log w |}.
Definition d_order (w : dworker) (o : order) : dworker :=
  match o with
  | lanczos => dgo w BSite | svd => dgo w BSvd | growing_left_env => dgo w (BGrow true) | growing_right_env => dgo w (BGrow false) | program_final => dgo w BDone
  | _ => dlost w
  end.
(** without operators kept, the sums are over nothing: logged with an empty list of operands *)
Definition held (w : dworker) : list X := match dw_ops w with Some t => [t] | None => [] end.
Definition dstep (w : dworker) (e : event) : res dworker :=
  match dw_ctl w, e with
  | BStart, EOrd program_start => Ok (dgo w BInit)
  | BStart, EOrd _ => Abort
  | BInit, EOrd init_grow_env_finish => Ok (dgo w BTop)
  | BInit, EOrd init_grow_env_grow => Ok (dgo w BInitNum)
  | BInit, EOrd _ => Abort
  | BInitNum, ENum _ => Ok (dgo w BInitMps)
  | BInitMps, ETen x => Ok (dgo w (BInitFarm x))
  | BInitFarm x, EFarm FBlock _ => Ok (dlog w BInit FBlock [x])
  | BTop, EOrd o => Ok (d_order w o)
  | BSite, ENum _ => Ok (dgo w BDyn)
  | BDyn, EOrd lanczos_mat_vec_dynamic => Ok (dgo w BDynNum)
  | BDyn, EOrd _ => Abort
  | BDynNum, ENum _ => Ok (dgo w BDynTen)
  | BDynTen, ETen x => Ok (dgo w (BDynFarm x))
  | BDynFarm x, EFarm FDyn (t :: _) => let w := dkeep w BOrd t in Ok (dlog w BOrd FDyn [t; x])    (* the terms come with the exchange *)
  | BOrd, EOrd lanczos_finish => Ok (dgo w BTop)
  | BOrd, EOrd lanczos_mat_vec_static => Ok (dgo w BStat)
  | BOrd, EOrd _ => Abort
  | BStat, ETen x => Ok (dgo w (BStatFarm x))
  | BStatFarm x, EFarm FStat _ => Ok (dlog w BOrd FStat (held w ++ [x]))
  | BSvd, ESvd => Ok (dgo w BTop)
  | BGrow r, ETen x => Ok (dgo w (BGrowFarm r x))
  | BGrowFarm true x, EFarm FGrowL _ => Ok (dlog w BTop FGrowL (held w ++ [x]))
  | BGrowFarm false x, EFarm FGrowR _ => Ok (dlog w BTop FGrowR (held w ++ [x]))
  | _, _ => Abort
  end.
Fixpoint drun (w : dworker) (t : list event) : res dworker := match t with [] => Ok w | e :: t => let! w := dstep w e in drun w t end.
End Protocol.
