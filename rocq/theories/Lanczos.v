(** Lanczos solvers: algorithm/vmps/lanczos_vmps_solver_impl.h 65-75, 79-97, 115-248, 306-355 (the one in
    algorithm/dmrg/lanczos_dmrg_solver_impl.h 61-196 has the same loop) and algorithm/tdvp/lanczos_expmv_solver_impl.h 77-184.

    Tensors live on a heap; a freed cell is [None], and using or freeing it again is undefined.  Vectors are accessed with
    bounds checks.  Scalars, tensors, their linear algebra and LAPACK are parameters; only the first n diagonal and the
    first n-1 off-diagonal entries are given to LAPACK.  Number of the iterations: [m], as in the code. *)
From Coq Require Import List Arith Bool.
From Verif Require Import Base.
Import ListNotations.

Section Lanczos.
Variables F V C : Type.                         (* double, tensors, coefficients of the basis vectors *)
Variables (zeroF : F) (sq : F -> F) (isz : F -> bool).
Variable mul : V -> V.                          (* eff_ham_mul_state *)
Variable dot : V -> V -> F.                     (* Real of the contraction with the conjugate *)
Variable lc1 : F -> V -> V -> V.                (* gamma - a b *)
Variable lc2 : F -> V -> F -> V -> V -> V.      (* gamma - a b - sqrt(N) b' *)
Variable normalize : V -> V * F.
Variable copy : V -> V.

(** tensors, and the coefficient arrays allocated with new[] *)
Record heap : Type := mkH { cells : list (option V); arrs : list (option (list C)) }.
Definition rd (p : nat) (h : heap) : res V := match nth_error (cells h) p with Some (Some v) => Ok v | _ => Ub end.
Definition wr (p : nat) (v : V) (h : heap) : res heap := let! _ := rd p h in Ok (mkH (upd (cells h) p (Some v)) (arrs h)).
Definition new (v : V) (h : heap) : nat * heap := (length (cells h), mkH (cells h ++ [Some v]) (arrs h)).
Definition del (p : nat) (h : heap) : res heap := let! _ := rd p h in Ok (mkH (upd (cells h) p None) (arrs h)).
(** delete of a pointer that may be null *)
Definition delo (p : option nat) (h : heap) : res heap := match p with None => Ok h | Some p => del p h end.
Definition newa (l : list C) (h : heap) : nat * heap := (length (arrs h), mkH (cells h) (arrs h ++ [Some l])).
Definition dela (p : option nat) (h : heap) : res heap :=
  match p with
  | None => Ok h
  | Some p => match nth_error (arrs h) p with Some (Some _) => Ok (mkH (cells h) (upd (arrs h) p None)) | _ => Ub end
  end.
Definition usep (p : option nat) : res nat := match p with Some p => Ok p | None => Ub end.
(** bases[i] dereferenced *)
Definition base (bs : list (option nat)) (i : nat) (h : heap) : res V := let! o := vget bs i in let! p := usep o in rd p h.
Fixpoint base_list (bs : list (option nat)) (n i : nat) (h : heap) : res (list V) :=
  match n with O => Ok [] | S k => let! v := base bs i h in let! l := base_list bs k (S i) h in Ok (v :: l) end.
(** first n entries of a vector, memcpy *)
Definition first {A} (n : nat) (l : list A) : res (list A) := if n <=? length l then Ok (firstn n l) else Ub.
(** LanczosFree, both versions *)
Fixpoint free_from (bs : list (option nat)) (h : heap) : res heap := match bs with [] => Ok h | p :: r => let! h := delo p h in free_from r h end.
Definition free_all (ev : option nat) (bs : list (option nat)) (lst : nat) (h : heap) : res heap :=
  let! h := dela ev h in let! h := free_from bs h in del lst h.
Definition free_n (ev : option nat) (bs : list (option nat)) (n lst : nat) (h : heap) : res heap :=
  let! h := dela ev h in let! l := first n bs in let! h := free_from l h in del lst h.

(** *** the eigenvalue solver *)
Variable tri_e : list F -> list F -> F.         (* lowest eigenvalue of the tridiagonal matrix *)
Variable tri_v : list F -> list F -> list C.    (* its eigenvector *)
Variable comb : list C -> list V -> V.          (* LinearCombine into a new tensor *)
Variable close : F -> F -> bool.                (* energy0 - energy0_new < error *)
Record lres : Type := mkL { iters : nat; eng : F; gs : nat }.
(** TridiagGsSolver, 'N' and 'V' *)
Definition gs_n (a b : list F) (n : nat) : res F := let! d := first n a in let! e := first (n - 1) b in Ok (tri_e d e).
Definition gs_v (a b : list F) (n : nat) (h : heap) : res (F * nat * heap) :=
  let! d := first n a in let! e := first (n - 1) b in
  let (p, h) := newa (tri_v d e) h in Ok (tri_e d e, p, h).
Definition coefs (p : nat) (h : heap) : res (list C) := match nth_error (arrs h) p with Some (Some l) => Ok l | _ => Ub end.
(** new TenT(indexes); LinearCombine(n, coefficients, bases, 0.0, gs_vec) *)
Definition combine (n ev : nat) (bs : list (option nat)) (h : heap) : res (nat * heap) :=
  let! c := coefs ev h in let! l := base_list bs n 0 h in Ok (new (comb c l) h).

(** 164-246; [fuel]: [Abort] when the loop does not end *)
Fixpoint eig_loop (fuel m maxit dim : nat) (bs : list (option nat)) (a b nn : list F) (e0 : F) (lst : nat) (h : heap) : res (lres * heap) :=
  match fuel with
  | O => Abort
  | S fuel =>
    let m := m + 1 in
    let! g := rd lst h in
    let! am := vget a (m - 1) in
    let! g := (if m =? 1 then let! q := base bs (m - 1) h in Ok (lc1 am q g)
               else let! n := vget nn (m - 1) in let! q := base bs (m - 1) h in let! q' := base bs (m - 2) h in Ok (lc2 am q n q' g)) in
    let (g, nrm) := normalize g in
    let! h := wr lst g h in
    if isz nrm then
      if m =? 1 then
        let! q := base bs 0 h in
        let (p, h) := new (copy q) h in
        let! h := free_all None bs lst h in
        Ok (mkL m e0 p, h)
      else
        let! (_, ev, h) := gs_v a b m h in
        let! (p, h) := combine m ev bs h in
        let! h := free_n (Some ev) bs m lst h in
        Ok (mkL m e0 p, h)
    else
      let! nn := vset nn m (sq nrm) in
      let! b := vset b (m - 1) nrm in
      let! bs := vset bs m (Some lst) in
      let! q := base bs m h in
      let (lst, h) := new (mul q) h in
      let! a := vset a m (dot (mul q) q) in
      let! e1 := gs_n a b (m + 1) in
      if close e0 e1 || (m =? dim) || (m =? maxit - 1) then
        let! (_, ev, h) := gs_v a b (m + 1) h in
        let! (p, h) := combine (m + 1) ev bs h in
        let! h := free_n (Some ev) bs (m + 1) lst h in
        Ok (mkL (m + 1) e1 p, h)
      else eig_loop fuel m maxit dim bs a b nn e1 lst h
  end.
(** 115-163; [dim]: pinit_state->size() *)
Definition eig_solver (maxit dim p0 : nat) (h : heap) : res (lres * heap) :=
  let bs := repeat None maxit in
  let a := repeat zeroF maxit in
  let b := repeat zeroF maxit in
  let nn := repeat zeroF maxit in
  let! v := rd p0 h in
  let! h := wr p0 (fst (normalize v)) h in
  let! bs := vset bs 0 (Some p0) in
  let! q := base bs 0 h in
  let (lst, h) := new (mul q) h in
  let! a := vset a 0 (dot (mul q) q) in
  let! nn := vset nn 0 zeroF in
  let! e0 := vget a 0 in
  eig_loop maxit 0 maxit dim bs a b nn e0 lst h.

(** *** the exponential *)
Variable cz : C.                                 (* QLTEN_Complex() *)
Variable tri_x : list F -> list F -> list C.     (* TridiagExpme1Solver *)
Variable far : list C -> list C -> bool.         (* Distance >= error *)
Variable diff : list C -> list C -> list C.      (* what Distance leaves in its first argument *)
Variable scale : F -> list C -> list C.          (* VectorScale by the initial norm *)
Variable phase : F -> F -> V -> V.               (* initial_norm * exp(-i step a[0]) * bases[0] *)
Record xres : Type := mkX { xiters : nat; expmv : nat }.
(** write n entries at the start of an array *)
Definition wra (p : nat) (l : list C) (h : heap) : res heap :=
  let! c := coefs p h in
  if length l <=? length c then Ok (mkH (cells h) (upd (arrs h) p (Some (l ++ skipn (length l) c)))) else Ub.
Definition xsolve (a b : list F) (n p : nat) (h : heap) : res heap :=
  let! d := first n a in let! e := first (n - 1) b in wra p (tri_x d e) h.
Definition scale_n (n p : nat) (s : F) (h : heap) : res heap := let! c := coefs p h in let! l := first n c in wra p (scale s l) h.
Definition xcombine (n ev : nat) (bs : list (option nat)) (h : heap) : res (nat * heap) :=
  let! c := coefs ev h in let! c := first n c in let! l := base_list bs n 0 h in Ok (new (comb c l) h).
(** 110-183 *)
Fixpoint exp_loop (fuel m maxit dim : nat) (bs : list (option nat)) (a b : list F) (n0 : F) (lst cf lcf : nat) (h : heap) : res (xres * heap) :=
  match fuel with
  | O => Abort
  | S fuel =>
    let m := m + 1 in
    let! g := rd lst h in
    let! am := vget a (m - 1) in
    let! g := (if m =? 1 then let! q := base bs (m - 1) h in Ok (lc1 am q g)
               else let! n := vget b (m - 2) in let! q := base bs (m - 1) h in let! q' := base bs (m - 2) h in Ok (lc2 am q n q' g)) in
    let (g, nrm) := normalize g in
    let! h := wr lst g h in
    if isz nrm then
      let! (p, h) := (if m =? 1 then let! a0 := vget a 0 in let! q := base bs 0 h in Ok (new (phase n0 a0 q) h)
                      else let! h := xsolve a b m cf h in let! h := scale_n m cf n0 h in xcombine m cf bs h) in
      let! h := free_all (Some cf) bs lst h in
      let! h := dela (Some lcf) h in
      Ok (mkX m p, h)
    else
      let! b := vset b (m - 1) nrm in
      let! bs := vset bs m (Some lst) in
      let! q := base bs m h in
      let (lst, h) := new (mul q) h in
      let! a := vset a m (dot (mul q) q) in
      let! h := xsolve a b (m + 1) cf h in
      let! c1 := coefs lcf h in let! c1 := first (m + 1) c1 in
      let! c2 := coefs cf h in let! c2 := first (m + 1) c2 in
      let! h := wra lcf (diff c1 c2) h in
      if negb (far c1 c2) || (m =? dim) || (m =? maxit - 1) then
        let! h := scale_n (m + 1) cf n0 h in
        let! (p, h) := xcombine (m + 1) cf bs h in
        let! h := free_all (Some cf) bs lst h in
        let! h := dela (Some lcf) h in
        Ok (mkX (m + 1) p, h)
      else exp_loop fuel m maxit dim bs a b n0 lst lcf cf h
  end.
(** 77-109 *)
Definition exp_solver (maxit dim p0 : nat) (h : heap) : res (xres * heap) :=
  let bs := repeat None maxit in
  let a := repeat zeroF maxit in
  let b := repeat zeroF maxit in
  let! v := rd p0 h in
  let (q, n0) := normalize v in
  let! h := wr p0 q h in
  let! bs := vset bs 0 (Some p0) in
  let! q := base bs 0 h in
  let (lst, h) := new (mul q) h in
  let! a := vset a 0 (dot (mul q) q) in
  let (cf, h) := newa (repeat cz maxit) h in
  let (lcf, h) := newa (repeat cz maxit) h in
  exp_loop maxit 0 maxit dim bs a b n0 lst cf lcf h.
End Lanczos.
