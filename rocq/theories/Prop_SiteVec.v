(** C90: the sites of a system *)
From Coq Require Import List Arith Lia Bool ZArith.
From Verif Require Import Base SiteVecModel SiteVecFacts.
Import ListNotations.
Local Open Scope nat_scope.

Section C90.
Variables (Q A : Type).
Variables (qz : Q) (qadd : Q -> Q -> Q) (qneg : Q -> Q) (qeqb : Q -> Q -> bool).
Hypothesis add_neg : forall q, qadd (qneg q) q = qz.
Hypothesis neg_add : forall q, qadd q (qneg q) = qz.
Hypothesis eqb_ok : forall a b, qeqb a b = true <-> a = b.
Variables (a0 a1 : A).
Variable dbg : bool.
Notation sv_of := (sv_of Q A qadd qneg qeqb a0 a1 dbg).
Notation sv_uniform := (sv_uniform Q A qadd qneg qeqb a0 a1 dbg).
Notation sv_eqb := (sv_eqb Q A qeqb).
(** from any nonempty list of local spaces, of either direction and with any sectors: as many sites as were given, each with the given sectors and
    direction OUT, and one operator per site, with the legs (inverse of the site, site), divergence zero and the elements of the identity.
    The operator is made without a block of another divergence, whatever the sectors *)
Theorem C90_sites : forall l, l <> [] -> exists s, sv_of l = Ok s /\ sv_size Q A s = length l /\ length (sv_ids Q A s) = length l /\
  forall k x, nth_error l k = Some x -> nth_error (sv_sites Q A s) k = Some (OUT, snd x) /\ exists t, nth_error (sv_ids Q A s) k = Some t /\
    t_legs Q A t = ((IN, snd x), (OUT, snd x)) /\ (0 < idim Q x -> t_div Q A t = Some qz) /\ forall i j, i < idim Q x -> j < idim Q x -> t_el Q A t i j = if i =? j then a1 else a0.
Proof. exact (sv_sites_spec Q A qz qadd qneg qeqb add_neg neg_add eqb_ok a0 a1 dbg). Qed.
(** N identical sites are the list of N copies *)
Theorem C90_uniform : forall N x, sv_uniform N x = sv_of (repeat x N).
Proof. exact (sv_uniform_ok Q A qadd qneg qeqb a0 a1 dbg). Qed.
(** the direction that was given does not matter *)
Theorem C90_direction : forall l l', map snd l = map snd l' -> sv_of l = sv_of l'.
Proof. exact (sv_direction Q A qadd qneg qeqb a0 a1 dbg). Qed.
(** two systems are equal exactly when they were made from the same sectors; then they agree in everything *)
Theorem C90_equal : forall l1 l2 s1 s2, sv_of l1 = Ok s1 -> sv_of l2 = Ok s2 -> (sv_eqb s1 s2 = true <-> map snd l1 = map snd l2) /\ (sv_eqb s1 s2 = true -> s1 = s2).
Proof. exact (sv_eqb_ok Q A qz qadd qneg qeqb add_neg neg_add eqb_ok a0 a1 dbg). Qed.
(** no sites: an assertion fails; without assertions the result is a system with no sites *)
Theorem C90_empty : sv_of [] = if dbg then Abort else Ok (mkSV Q A 0 [] []).
Proof. unfold SiteVecModel.sv_of. destruct dbg; reflexivity. Qed.
End C90.
Print Assumptions C90_sites.
Print Assumptions C90_uniform.
Print Assumptions C90_direction.
Print Assumptions C90_equal.
Print Assumptions C90_empty.
(** charges: a spin with two sectors given as IN, a site with three sectors of different size, one charge twice *)
Definition c90_l : list (index Z) := [(IN, [(1%Z, 1); ((-1)%Z, 1)]); (OUT, [(0%Z, 2); (2%Z, 1); (0%Z, 1)])].
Theorem C90_case : (forall q, (- q + q = 0)%Z) /\ (forall q, (q + - q = 0)%Z) /\ (forall a b, Z.eqb a b = true <-> a = b) /\
  (exists s, sv_of Z Z Z.add Z.opp Z.eqb 0%Z 1%Z true c90_l = Ok s /\ map (fun t => map (fun i => map (t_el Z Z t i) (seq 0 4)) (seq 0 4)) (sv_ids Z Z s) =
    [[[1; 0; 0; 0]; [0; 1; 0; 0]; [0; 0; 0; 0]; [0; 0; 0; 0]]; [[1; 0; 0; 0]; [0; 1; 0; 0]; [0; 0; 1; 0]; [0; 0; 0; 1]]]%Z) /\
  (* an operator that is not neutral cannot be written into the same tensor *)
  (let! t := gen_id Z Z Z.add Z.opp Z.eqb 0%Z 1%Z (OUT, [(1%Z, 1); ((-1)%Z, 1)]) in write2 Z Z Z.add Z.opp Z.eqb 0 1 1%Z t) = Abort.
Proof.
  split; [intros; lia|]. split; [intros; lia|]. split; [intros; apply Z.eqb_eq|]. split; [eexists; split; [vm_compute; reflexivity|vm_compute; reflexivity]|reflexivity].
Qed.
