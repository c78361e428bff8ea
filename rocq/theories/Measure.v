(** Measurements: one_dim_tn/mps/finite_mps/finite_mps_measu_memory.h and finite_mps_measu_disk.h.

    Operators are square matrices (leg 0 contracted with the ket, leg 1 with the bra).  Elements of tensors are in an arbitrary ring
    with a conjugation; a mismatch of dimensions is undefined.  Writing the results to a file and printing are not modelled.  Disk
    functions only read the directory. *)
From Coq Require Import List Arith Bool ZArith.
From Verif Require Import Base FiniteMps FmpsSpec.
Import ListNotations.

Section Model.
Variables (R : Type) (r0 r1 : R) (radd rmul : R -> R -> R) (conj : R -> R).
Infix "*r" := rmul (at level 40, left associativity).
Notation sumn := (sumn R r0 radd).
Notation ten := (ten R). Notation fmps := (fmps R).
Variable qr : ten -> ten * mat2 R.
Variable svd1 : ten -> mat2 R * ten * list R.

Record lop : Type := mkLop { odim : nat; oe : nat -> nat -> R }.
(** op == id_op: equality of tensors *)
Variable op_eqb : lop -> lop -> bool.
(** GetSitesInfo().id_ops *)
Variable ids : list lop.
(** ptemp_ten: ket bond, bra bond *)
Definition temp : Type := (nat * (nat -> nat -> R))%type.

(** OneSiteOpAvg, memory 355-376 *)
Definition one_avg (t : ten) (o : lop) : res R :=
  if d1 t =? odim o then
    let tmp := fun l r s' => sumn (d1 t) (fun s => el t l s r *r oe o s s') in
    Ok (sumn (d0 t) (fun l => sumn (d1 t) (fun s' => sumn (d2 t) (fun r => tmp l r s' *r conj (el t l s' r)))))
  else Ub.
(** ContractHeadSite, memory 444-467 *)
Definition head_site (t : ten) (o : lop) : res temp :=
  if d1 t =? odim o then
    let tmp := fun l r s' => sumn (d1 t) (fun s => el t l s r *r oe o s s') in
    Ok (d2 t, fun r r' => sumn (d0 t) (fun l => sumn (d1 t) (fun s' => tmp l r s' *r conj (el t l s' r'))))
  else Ub.
(** CtrctMidTen, memory 525-549 *)
Definition mid_site (t : ten) (o ido : lop) (x : temp) : res temp :=
  let (n, f) := x in
  if op_eqb o ido then
    if d0 t =? n then
      let tmp := fun s r l' => sumn (d0 t) (fun l => el t l s r *r f l l') in
      Ok (d2 t, fun r r' => sumn (d1 t) (fun s => sumn n (fun l' => tmp s r l' *r conj (el t l' s r'))))
    else Ub
  else
    if (d0 t =? n) && (d1 t =? odim o) then
      let tmp1 := fun s r l' => sumn (d0 t) (fun l => el t l s r *r f l l') in
      let tmp2 := fun r l' s' => sumn (d1 t) (fun s => tmp1 s r l' *r oe o s s') in
      Ok (d2 t, fun r r' => sumn n (fun l' => sumn (d1 t) (fun s' => tmp2 r l' s' *r conj (el t l' s' r'))))
    else Ub.
(** ContractTailSite, memory 480-499 *)
Definition tail_site (t : ten) (o : lop) (x : temp) : res R :=
  let (n, f) := x in
  if (d0 t =? n) && (d1 t =? odim o) then
    let tmp2 := fun s r l' => sumn (d0 t) (fun l => el t l s r *r f l l') in
    let tmp3 := fun r l' s' => sumn (d1 t) (fun s => tmp2 s r l' *r oe o s s') in
    Ok (sumn (d2 t) (fun r => sumn n (fun l' => sumn (d1 t) (fun s' => tmp3 r l' s' *r conj (el t l' s' r)))))
  else Ub.

(** ** In memory *)
(** MeasuRes: sites and value of each event *)
Notation result := (list (list nat * R)).
(** MeasureOneSiteOp, memory 142-155 *)
Definition one_site_mem (dbg : bool) (o : lop) (st : fmps) : res (fmps * result) :=
  for_loop 0 (length (tens st)) (fun i x =>
    let! st := centralize R r0 radd rmul qr svd1 dbg (Z.of_nat i) (fst x) in
    let! st := touch R i st in let! t := deref R st i in let! a := one_avg t o in
    Ok (st, snd x ++ [([i], a)])) (st, []).
(** the values of a list of operators at site [s], appended to the result list of each operator: the inner loops of memory 182-184 and
    disk 127-129 *)
Definition avg_all (ops : list lop) (s : nat) (x : fmps * list result) : res (fmps * list result) :=
  for_loop 0 (length ops) (fun j x =>
    let! st := touch R s (fst x) in let! t := deref R st s in let! o := vget ops j in let! a := one_avg t o in
    let! l := vget (snd x) j in let! outs := vset (snd x) j (l ++ [([s], a)]) in Ok (st, outs)) x.
(** MeasureOneSiteOp with a list of operators, memory 168-190 *)
Definition one_sites_mem (dbg : bool) (ops : list lop) (st : fmps) : res (fmps * list result) :=
  for_loop 0 (length (tens st)) (fun i x =>
    let! st := centralize R r0 radd rmul qr svd1 dbg (Z.of_nat i) (fst x) in avg_all ops i (st, snd x)) (st, repeat [] (length ops)).
(** OpsVecAvg, memory 502-523; [ops] is not empty: tail = head + size - 1 *)
Definition ops_avg (dbg : bool) (st : fmps) (ops : list lop) (head tail : nat) : res R :=
  let! t := deref R st head in let! o := vget ops 0 in let! x := head_site t o in
  let! _ := assert_ dbg (length ops =? tail - head + 1) in
  let! x := for_loop (head + 1) (tail - (head + 1)) (fun i x =>
    let! o := vget ops (i - head) in let! ido := vget ids i in let! t := deref R st i in mid_site t o ido x) x in
  let! t := deref R st tail in let! o := vget ops (length ops - 1) in tail_site t o x.
(** MultiSiteOpAvg, memory 378-408 *)
Definition expand_ops (dbg : bool) (phys : list lop) (insts : list (list lop)) : res (list lop) :=
  let np := length phys in let ni := length insts in
  let! _ := assert_ dbg ((np =? ni + 1) || (np =? ni)) in
  match np with
  | O => Ub (* np - 1 wraps *)
  | S m =>
    let! ops := for_loop 0 m (fun i ops => let! p := vget phys i in let! l := vget insts i in Ok (ops ++ p :: l)) [] in
    let! p := vget phys m in
    let ops := ops ++ [p] in
    if ni =? np then let! l := vget insts m in Ok (ops ++ l) else Ok ops
  end.
Definition multi_avg (dbg : bool) (st : fmps) (phys : list lop) (insts : list (list lop)) (sites : list nat) : res (list nat * R) :=
  let! ops := expand_ops dbg phys insts in
  let! head := vget sites 0 in
  let! a := ops_avg dbg st ops head (head + length ops - 1) in Ok (sites, a).
(** the overload with one operator per gap, memory 411-431.  s' - s - 1 wraps to a huge size when s' <= s, and the constructor of the
    vector throws *)
Definition fill_ops (dbg : bool) (np : nat) (inst : list lop) (sites : list nat) : res (list (list lop)) :=
  let! _ := assert_ dbg (np =? length inst + 1) in
  for_loop 0 (length inst) (fun i l =>
    let! s' := vget sites (i + 1) in let! s := vget sites i in let! o := vget inst i in
    if s' <=? s then Abort else Ok (l ++ [repeat o (s' - s - 1)])) [].
Definition multi_avg1 (dbg : bool) (st : fmps) (phys : list lop) (inst : list lop) (sites : list nat) : res (list nat * R) :=
  let! insts := fill_ops dbg (length phys) inst sites in multi_avg dbg st phys insts sites.
(** IsOrderKept, memory 100-105 (the empty list, on which size() - 1 wraps, is excluded by the assertion before it) *)
Fixpoint order_kept (l : list nat) : bool := match l with a :: (b :: _) as l' => if b <? a then false else order_kept l' | _ => true end.
(** MeasureMultiSiteOp, memory 291-311 and 331-351; [avg] is the overload of MultiSiteOpAvg *)
Definition multi_loop {I : Type} (avg : fmps -> list lop -> I -> list nat -> res (list nat * R))
    (dbg : bool) (phys_set : list (list lop)) (inst_set : list I) (sites_set : list (list nat)) (st : fmps) : res (fmps * result) :=
  for_loop 0 (length sites_set) (fun i x =>
    let! phys := vget phys_set i in let! inst := vget inst_set i in let! sites := vget sites_set i in
    let! _ := assert_ dbg (1 <? length sites) in let! _ := assert_ dbg (order_kept sites) in
    let! s0 := vget sites 0 in
    let! st := centralize R r0 radd rmul qr svd1 dbg (Z.of_nat s0) (fst x) in
    let! a := avg st phys inst sites in Ok (st, snd x ++ [a])) (st, []).
Definition multi_site_mem (dbg : bool) := multi_loop (multi_avg dbg) dbg.
Definition multi_site_mem1 (dbg : bool) := multi_loop (multi_avg1 dbg) dbg.
(** MeasureTwoSiteOp with own insertion operators for each event, memory 208-236.  s' - s - 1 is a wrapping difference: it equals no
    size when s' <= s *)
Definition two_site_mem (dbg : bool) (phys : list lop) (insts : list (list lop)) (sites_set : list (list nat)) (st : fmps) : res (fmps * result) :=
  let! _ := assert_ dbg (length phys =? 2) in
  let! _ := assert_ dbg (length insts =? length sites_set) in
  let! l := for_loop 0 (length sites_set) (fun i l =>
    let! sites := vget sites_set i in let! ins := vget insts i in
    let! _ := assert_ dbg (length sites =? 2) in
    let! _ := (if dbg then let! s' := vget sites 1 in let! s := vget sites 0 in assert_ dbg ((s <? s') && (s' - s - 1 =? length ins)) else Ok tt) in
    Ok (l ++ [[ins]])) [] in
  multi_site_mem dbg (repeat phys (length sites_set)) l sites_set st.
(** MeasureTwoSiteOp with one insertion operator, memory 251-269 *)
Definition two_site_mem1 (dbg : bool) (phys : list lop) (inst : lop) (sites_set : list (list nat)) (st : fmps) : res (fmps * result) :=
  let! _ := assert_ dbg (length phys =? 2) in
  multi_site_mem1 dbg (repeat phys (length sites_set)) (repeat [inst] (length sites_set)) sites_set st.

(** ** From disk *)
Variable disk : nat -> option ten.
(** TenVec::LoadTen, ten_vec.h 61-75: allocate, then read; throws without file.  Flags are not touched *)
Definition load_ten (i : nat) (st : fmps) : res fmps :=
  let! st := put R i None st in match disk i with Some t => put R i (Some t) st | None => Abort end.
Definition dealloc (i : nat) (st : fmps) : res fmps := put R i None st.
Definition mps_empty (st : fmps) : bool := forallb (fun p => match p with None => true | _ => false end) (tens st).
(** mps[i] of an object that is not const *)
Definition at_ (i : nat) (st : fmps) : res (fmps * ten) := let! st := touch R i st in let! t := deref R st i in Ok (st, t).
Notation lcan := (lcan_ten R r0 radd rmul qr).
(** MeasureOneSiteOp, disk 57-83 *)
Definition one_site_disk (dbg : bool) (o : lop) (st : fmps) : res (fmps * result) :=
  let! _ := assert_ dbg (mps_empty st) in
  let N := length (tens st) in
  let! st := load_ten 0 st in
  for_loop 0 N (fun site x =>
    let! (st, t) := at_ site (fst x) in let! a := one_avg t o in
    let! st := (if site <? N - 1 then let! st := load_ten (site + 1) st in lcan dbg site st else Ok st) in
    let! st := dealloc site st in Ok (st, snd x ++ [([site], a)])) (st, []).
(** moving the center from [from] to [to_], disk 122-126, 184-188, 341-345 *)
Definition move_center (dbg : bool) (from to_ : nat) (st : fmps) : res fmps :=
  for_loop from (to_ - from) (fun j st => let! st := load_ten (j + 1) st in let! st := lcan dbg j st in dealloc j st) st.
(** MeasureOneSiteOp on a list of sites, disk 102-137, and on all sites, 140-152 *)
Definition one_sites_disk (dbg : bool) (ops : list lop) (sites : list nat) (st : fmps) : res (fmps * list result) :=
  let! st := load_ten 0 st in
  let! x := for_loop 0 (length sites) (fun i x =>
    let! s := vget sites i in
    let! p := (if i =? 0 then Ok 0 else vget sites (i - 1)) in
    let! st := move_center dbg p s (fst x) in avg_all ops s (st, snd x)) (st, repeat [] (length ops)) in
  match length sites with O => Ub (* sites.back() *) | S m => let! s := vget sites m in let! st := dealloc s (fst x) in Ok (st, snd x) end.
Definition all_sites_disk (dbg : bool) (ops : list lop) (st : fmps) : res (fmps * list result) := one_sites_disk dbg ops (seq 0 (length (tens st))) st.
(** CtrctMidTen with a path, disk 28-38 *)
Definition mid_disk (site : nat) (o ido : lop) (y : fmps * temp) : res (fmps * temp) :=
  let! st := load_ten site (fst y) in let! t := deref R st site in let! x := mid_site t o ido (snd y) in
  let! st := dealloc site st in Ok (st, x).
(** MeasureTwoSiteOpGroup, disk 173-220; site2 - 1 wraps for site2 = 0: the loop leaves the chain *)
Definition two_site_disk (dbg : bool) (o1 o2 : lop) (site1 : nat) (site2s : list nat) (inst : option lop) (st : fmps) : res (fmps * result) :=
  let! st := load_ten 0 st in
  let! st := move_center dbg 0 site1 st in
  let! (st, t) := at_ site1 st in let! x := head_site t o1 in
  let! st := dealloc site1 st in
  let! z := for_each site2s (fun site2 (z : (fmps * temp) * nat * result) =>
    let '(y, eaten, out) := z in
    if site2 =? 0 then Ub else
    let! y := for_loop (eaten + 1) (site2 - 1 - eaten) (fun k y =>
      let! ido := vget ids k in mid_disk k (match inst with Some o => o | None => ido end) ido y) y in
    let eaten := Nat.max eaten (site2 - 1) in
    let! st := load_ten site2 (fst y) in let! (st, t) := at_ site2 st in let! a := tail_site t o2 (snd y) in
    let! st := dealloc site2 st in Ok ((st, snd y), eaten, out ++ [([site1; site2], a)])) ((st, x), site1, []) in
  let '(y, _, out) := z in Ok (fst y, out).
(** all sites after the reference site, disk 229-244 *)
Definition two_all_disk (dbg : bool) (o1 o2 : lop) (ref : nat) (inst : option lop) (st : fmps) : res (fmps * result) :=
  two_site_disk dbg o1 o2 ref (seq (ref + 1) (length (tens st) - (ref + 1))) inst st.
(** LeftTempTen::MoveTo, disk 281-294 *)
Definition move_to (dbg : bool) (site : nat) (y : fmps * temp * nat) : res (fmps * temp * nat) :=
  let '(st, x, idx) := y in
  let! _ := assert_ dbg (idx <=? site) in
  let! (st, x) := for_loop (idx + 1) (site - idx) (fun m (y : fmps * temp) =>
    let! st := touch R m (fst y) in
    let! p := vget (tens st) m in
    let! st := (match p with None => load_ten m st | Some _ => Ok st end) in
    let! ido := vget ids m in let! t := deref R st m in let! x := mid_site t ido ido (snd y) in
    let! st := dealloc m st in Ok (st, x)) (st, x) in
  Ok (st, x, site).
(** MeasureFourSiteOpGroup, disk 318-384.  [targets] is the list after std::sort by the first site (the order of equal ones is not
    specified).  t0 - 1 wraps for t0 = 0 *)
Definition four_site_disk (dbg : bool) (ops : lop * lop * lop * lop) (ref0 ref1 : nat) (targets : list (nat * nat)) (inst : option lop) (st : fmps) : res (fmps * result) :=
  let '(o0, o1, o2, o3) := ops in
  let! _ := assert_ dbg (mps_empty st) in
  let! ins := (match inst with Some o => Ok o | None => vget ids 0 end) in
  let! st := load_ten 0 st in
  let! st := move_center dbg 0 ref0 st in
  let! (st, t) := at_ ref0 st in let! x := head_site t o0 in
  let! st := dealloc ref0 st in
  let! y := for_loop (ref0 + 1) (ref1 - (ref0 + 1)) (fun i y => let! ido := vget ids i in mid_disk i ins ido y) (st, x) in
  let! ido := vget ids ref1 in
  let! y := mid_disk ref1 o1 ido y in
  let! _ := assert_ dbg (mps_empty (fst y)) in
  let! z := for_each targets (fun tt (z : fmps * temp * nat * result) =>
    let (t0, t1) := tt in let (y, out) := z in
    if t0 =? 0 then Ub else
    let! y := move_to dbg (t0 - 1) y in
    let '(st, keep, idx) := y in
    let! st := load_ten t0 st in let! ido := vget ids t0 in let! t := deref R st t0 in let! x := mid_site t o2 ido keep in
    let! (st, x) := for_loop (t0 + 1) (t1 - (t0 + 1)) (fun i (y : fmps * temp) =>
      let! st := load_ten i (fst y) in let! ido := vget ids i in let! t := deref R st i in let! x := mid_site t ins ido (snd y) in Ok (st, x)) (st, x) in
    let! st := load_ten t1 st in let! (st, t) := at_ t1 st in let! a := tail_site t o3 x in
    Ok ((st, keep, idx), out ++ [([ref0; ref1; t0; t1], a)])) (y, ref1, []) in
  let '(st, _, _, out) := z in
  match length targets with
  | O => Ub (* target_sites_set.back() *)
  | S m => let! (t0, t1) := vget targets m in
    let! st := for_loop t0 (S t1 - t0) (fun i st => dealloc i st) st in
    let! _ := assert_ dbg (mps_empty st) in Ok (st, out)
  end.
End Model.
Arguments mkLop {R}. Arguments odim {R}. Arguments oe {R}.
