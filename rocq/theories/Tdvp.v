(** Two-site TDVP: algorithm/tdvp/two_site_update_finite_tdvp_impl.h.

    The distributed version (algo_mpi/tdvp/two_site_update_finite_tdvp_mpi_impl_master.h 174-237) has the same sweep with the
    evolutions done by the farms of C32 and C33.

    What the contractions compute is a parameter, times are rationals:
    - [evo rt l t el a b er]: the two sites l, l+1 evolved by the time t and split, moving right or left (273-394 without the environment);
    - [back j t el a er]: site j evolved by t (404-460; direction 'n' is the only one used);
    - [actO], [actI]: contraction of a site tensor with local_op0, inst0; [None] is the default tensor;
    - [mtr], [mtl], [mgr], [mgl], [mval]: the contractions of the overlap with local_op1 and inst1 (540-630). *)
From Coq Require Import List Arith Lia Bool QArith.
From Verif Require Import Base Disk TwoSite.
Import ListNotations.
Local Open Scope nat_scope.

Inductive tinstr : Type := TB (c : instr) | Evo (rt : bool) (l : nat) (tau : Q) | Back (j : nat) (tau : Q).
(** what a substep does to the state: sites l, l+1 or site j, and the time *)
Inductive sub : Type := Two (rt : bool) (l : nat) (t : Q) | One (j : nat) (t : Q).
(** line 317 and line 438 *)
Definition fwd_time (tau : Q) : Q := (tau / 2)%Q.
Definition bwd_time (tau : Q) : Q := (- tau / 2)%Q.

Section Tdvp.
Variables T E M V : Type.
Variables (dT : T) (dE : E) (dM : M) (triv : side -> E) (grow : side -> nat -> E -> T -> E).
Variables (canoL canoR : T -> T -> T * T).
Variable evo : bool -> nat -> Q -> E -> T -> T -> E -> T * T.
Variable back : nat -> Q -> E -> T -> E -> T.
Variable dbg : bool.
Notation world := (world T E unit).
Definition no_solve (_ : bool) (_ : nat) (_ : E) (a b : T) (_ : E) : T * T * unit := (a, b, tt).   (* Upd2 does not occur *)
Notation exec1 := (exec1 T E unit dT dE triv grow no_solve canoL canoR dbg).
Notation exec := (exec T E unit dT dE triv grow no_solve canoL canoR dbg).
Notation getM := (getM T E unit). Notation putM := (putM T E unit). Notation getE := (getE T E unit). Notation putE := (putE T E unit).
Notation nm := (nm T E unit). Notation mm := (mm T E unit). Notation dm := (dm T E unit).

Definition texec1 (c : tinstr) (w : world) : res world :=
  match c with
  | TB c => exec1 c w
  | Evo rt l tau =>
      let! el := getE L l w in
      let! er := getE R (nm w - (l + 2)) w in
      let! a := getM l w in
      let! b := getM (l + 1) w in
      let (a', b') := evo rt l (fwd_time tau) el a b er in
      let! w := putM l a' w in
      let! w := putM (l + 1) b' w in
      if rt then putE L (l + 1) (grow L l el a') w else putE R (nm w - (l + 1)) (grow R (l + 1) er b') w
  | Back j tau =>
      let! el := getE L j w in
      let! er := getE R (nm w - j - 1) w in
      let! a := getM j w in
      putM j (back j (bwd_time tau) el a er) w
  end.
Fixpoint texec (p : list tinstr) (w : world) : res world := match p with [] => Ok w | c :: q => let! w := texec1 c w in texec q w end.
Definition subs (p : list tinstr) : list sub :=
  flat_map (fun c => match c with TB _ => [] | Evo rt l tau => [Two rt l (fwd_time tau)] | Back j tau => [One j (bwd_time tau)] end) p.

(** TwoSiteFiniteTDVPSweep, 205-270; N >= 2, size_t underflow for N < 2 is not modelled *)
Definition tstep_right (N : nat) (tau : Q) (i : nat) : list tinstr := map TB (load_right N i) ++ [Evo true i tau; Back (i + 1) tau] ++ map TB (dump_right N i).
Definition tstep_left (N : nat) (tau : Q) (i : nat) : list tinstr :=
  map TB (load_left N i) ++ [Evo false (i - 1) (if i =? N - 1 then (tau * 2)%Q else tau); Back (i - 1) tau] ++ map TB (dump_left N i).
Definition tdvp_sweep (N : nat) (tau : Q) : list tinstr :=
  map TB [NewEnvs (N - 1); LoadM 1] ++ flat_map (tstep_right N tau) (seq 0 (N - 2)) ++ flat_map (tstep_left N tau) (rev (seq 2 (N - 2)))
  ++ map TB [LoadM 0; LoadE L 0] ++ [Evo true 0 tau] ++ map TB [DumpM 0 true; DumpM 1 true; FreeE L 0; FreeE L 1; FreeE R (N - 2)].
(** the sweep works on an MPS object of its own *)
Definition sweep_run (tau : Q) (w : world) : res world :=
  let! w' := texec (tdvp_sweep (nm w) tau) (set_mm T E unit fnone w) in Ok (set_mm T E unit (mm w) w').

(** *** preparation: 138-161 *)
Variable actO : T -> T.
Variable actI : option (T -> T).
(** 138-145: a copy of the MPS files, made if there is none *)
Definition copy_initial (w : world) : res (world * (nat -> option T)) :=
  for_loop 0 (nm w) (fun i (s : world * (nat -> option T)) => let (w, f) := s in
    let! w := exec [LoadM i] w in Ok (set_mm T E unit (fset (mm w) i None) w, fset f i (Some (orelse dT (mm w i))))) (w, fnone).
(** ActOperatorOnMps, 25-54 *)
Definition act1 (f : T -> T) (i : nat) (w : world) : res world :=
  let! w := exec [LoadM i] w in let! t := getM i w in let! w := putM i (f t) w in exec [DumpM i true] w.
Definition act_op (site : nat) (w : world) : res world :=
  let! w := act1 actO site w in match actI with None => Ok w | Some g => for_each (rev (seq 0 site)) (act1 g) w end.
(** mps.LoadTen(slot, name of site f) *)
Definition load_as (slot f : nat) (w : world) : res world :=
  if slot <? nm w then match dm w f with Some t => Ok (set_mm T E unit (fset (mm w) slot (Some t)) w) | None => Abort end else Ub.
(** 147-154; [corr]: local_op_corr *)
Definition recenter (corr : bool) (site : nat) (w : world) : res world :=
  let st := if corr then site else nm w - 1 in
  let! w := load_as st site w in
  let! w := for_each (rev (seq 1 st)) (fun i => exec [LoadM (i - 1); CanoR i; DumpM i true]) w in
  exec [DumpM 0 true] w.

(** *** the overlap of two states with an operator at each site: CalPsi1OpPsi2, 540-630.
    Files: those of the evolved state [f1], of the initial state [f2], of the partial contractions [mf].
    Memory: mps1 and mps2 have the same slots occupied. *)
Variables (mtr mtl : M) (mgr : T -> T -> M -> M) (mgl : M -> T -> T -> M) (mval : M -> T -> T -> M -> V).
Record mst : Type := mkM { m_1 : nat -> option T; m_2 : nat -> option T; m_r : M; m_l : M; m_f : nat -> option M; m_res : list (option V) }.
Inductive minstr : Type :=
| MLoad (i : nat) | MFree (i : nat)
| MInitR                       (* 564-569: uses mps1.back(), mps2.back() *)
| MGrowR (i n : nat)           (* 577-584 with site i, written to file n *)
| MInitL                       (* 589-594 *)
| MRead (n : nat)              (* 598-602: a file that cannot be read leaves the default tensor *)
| MVal (i : nat)               (* 608-614 *)
| MGrowL (i : nat).            (* 617-625 *)
Definition mexec1 (N : nat) (f1 f2 : nat -> option T) (c : minstr) (s : mst) : res mst :=
  let both i := if i <? N then let! a := use (m_1 s i) in let! b := use (m_2 s i) in Ok (a, b) else Ub in
  match c with
  | MLoad i => if i <? N then match f1 i, f2 i with Some a, Some b => Ok (mkM (fset (m_1 s) i (Some a)) (fset (m_2 s) i (Some b)) (m_r s) (m_l s) (m_f s) (m_res s)) | _, _ => Abort end else Ub
  | MFree i => if i <? N then Ok (mkM (fset (m_1 s) i None) (fset (m_2 s) i None) (m_r s) (m_l s) (m_f s) (m_res s)) else Ub
  | MInitR => let! _ := both (N - 1) in Ok (mkM (m_1 s) (m_2 s) mtr (m_l s) (fset (m_f s) 0 (Some mtr)) (m_res s))
  | MGrowR i n => let! (a, b) := both i in let r := mgr b a (m_r s) in Ok (mkM (m_1 s) (m_2 s) r (m_l s) (fset (m_f s) n (Some r)) (m_res s))
  | MInitL => let! _ := both 0 in Ok (mkM (m_1 s) (m_2 s) (m_r s) mtl (m_f s) (m_res s))
  | MRead n => Ok (mkM (m_1 s) (m_2 s) (orelse dM (m_f s n)) (m_l s) (fset (m_f s) n None) (m_res s))
  | MVal i => let! (a, b) := both i in let! r := vset (m_res s) i (Some (mval (m_l s) b a (m_r s))) in Ok (mkM (m_1 s) (m_2 s) (m_r s) (m_l s) (m_f s) r)
  | MGrowL i => let! (a, b) := both i in Ok (mkM (m_1 s) (m_2 s) (m_r s) (mgl (m_l s) b a) (m_f s) (m_res s))
  end.
Fixpoint mexec (N : nat) (f1 f2 : nat -> option T) (p : list minstr) (s : mst) : res mst := match p with [] => Ok s | c :: q => let! s := mexec1 N f1 f2 c s in mexec N f1 f2 q s end.
Definition overlap_prog (N : nat) : list minstr :=
  [MLoad (N - 1); MInitR]
  ++ flat_map (fun i => (if 1 <? i then [MLoad (N - i)] else []) ++ [MGrowR (N - i) i; MFree (N - i)]) (seq 1 (N - 1))
  ++ [MLoad 0; MInitL]
  ++ flat_map (fun i => (if 0 <? i then [MRead (N - i - 1); MLoad i] else []) ++ [MVal i] ++ (if i <? N - 1 then [MGrowL i] else []) ++ [MFree i]) (seq 0 N).
(** std::vector<TenElemT> res(N) starts with zeroes; [None] stands for an entry that was not assigned *)
Definition overlap (N : nat) (f1 f2 : nat -> option T) (mf : nat -> option M) : res (list (option V) * (nat -> option M)) :=
  let! s := mexec N f1 f2 (overlap_prog N) (mkM fnone fnone dM dM mf (repeat None N)) in Ok (m_res s, m_f s).

(** *** TwoSiteFiniteTDVP, 124-202 *)
Variable phase : Q -> V -> V.      (* * exp(i e0 time) *)
Record entry : Type := mkE { e_site0 : nat; e_site : nat; e_time : Q; e_avg : option V }.
Definition record_all (N site base : nat) (time : Q) (ph : option V -> option V) (c : list (option V)) (r : list (option entry)) : res (list (option entry)) :=
  for_loop 0 N (fun i r => let! v := vget c i in vset r (base + i) (Some (mkE site i time (ph v)))) r.
Definition init_state (corr : bool) (site : nat) (ini : option (nat -> option T)) (w : world) : res (world * (nat -> option T)) :=
  let! (w, f2) := match ini with Some f => Ok (w, f) | None => copy_initial w end in
  let! w := act_op site w in
  let! w := recenter corr site w in
  let! w := exec ((if tmp T E unit w then [] else [Mkdir]) ++ init_envs (nm w) 1) w in Ok (w, f2).
Definition tdvp_run (corr : bool) (site steps : nat) (tau : Q) (ini : option (nat -> option T)) (mf : nat -> option M) (w : world) : res (list (option entry) * world) :=
  let N := nm w in
  let! (w, f2) := init_state corr site ini w in
  let r := repeat None (if corr then N * (steps + 1) else steps + 1) in
  let! (c, mf) := overlap N (dm w) f2 mf in
  let! r := record_all N site 0 0%Q (fun v => v) c r in
  let! (r, w, _) := for_loop 0 steps (fun step (s : list (option entry) * world * (nat -> option M)) => let '(r, w, mf) := s in
    let! w := sweep_run tau w in
    let time := (inject_Z (Z.of_nat (step + 1)) * tau)%Q in
    let! (c, mf) := overlap N (dm w) f2 mf in
    let! r := record_all N site ((step + 1) * N) time (option_map (phase time)) c r in Ok (r, w, mf)) (r, w, mf) in
  Ok (r, w).
End Tdvp.
