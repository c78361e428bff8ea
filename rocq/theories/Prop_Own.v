(** Properties C16 - C18 and C45: tensor containers, dumping and loading, file names.
    [shows w a]: the client sees the containers and files of [a]; [good] adds exact ownership. *)
From Coq Require Import List Arith Lia Bool String Ascii.
From Verif Require Import Base DuoVec DuoSpec DuoFacts Names DuoIo.
Import ListNotations.

Section Own.
Variable V : Type.       (* any element type *)
Variable dflt : V.       (* the default constructed element *)

(** C16: every history either completes with each live element in exactly one slot (and answers as plain lists of values do),
    or stops at a call the value specification itself forbids; it never deletes twice or reads a deleted element *)
Theorem C16_exact_ownership : forall l, match runs V dflt l (w0 V), aruns V dflt l (a0 V) with
  | Ok (o, w), Ok (o', a) => o = o' /\ exact_ownership V w /\ shows V w a
  | Ub, Ub => True
  | _, _ => False
  end.
Proof. exact (C16_lemma V dflt). Qed.
Theorem C16_nothing_leaks : forall l o w, runs V dflt l (w0 V) = Ok (o, w) -> Forall (fun c => c = None) (objs V w) -> forall a, ~ live V w a.
Proof. exact (no_leak V dflt). Qed.

(** C17 *)
Theorem C17_copy_is_equal : forall w a c s, good V w a -> nth_error (conts V a) c = Some (Some s) ->
  exists w' a', step V dflt (OCopy V c) w = Ok (OutUnit V, w') /\ good V w' a' /\
    nth_error (conts V a') (List.length (conts V a)) = Some (Some s) /\ forall d, d < List.length (conts V a) -> nth_error (conts V a') d = nth_error (conts V a) d.
Proof. exact (copy_equal V dflt). Qed.
Theorem C17_assignment_is_equal : forall w a c d s t, good V w a -> nth_error (conts V a) c = Some (Some s) -> nth_error (conts V a) d = Some (Some t) -> c <> d ->
  exists w' a', step V dflt (OAssign V c d) w = Ok (OutUnit V, w') /\ good V w' a' /\
    nth_error (conts V a') c = Some (Some t) /\ forall e, e <> c -> nth_error (conts V a') e = nth_error (conts V a) e.
Proof. exact (assign_equal V dflt). Qed.
(** whatever is done to the other containers (the copies among them), a container keeps its contents *)
Theorem C17_copies_are_independent : forall l w a d s, good V w a -> nth_error (conts V a) d = Some (Some s) -> Forall (fun o => ~ In d (writes V o)) l ->
  forall o w', runs V dflt l w = Ok (o, w') -> exists a', good V w' a' /\ nth_error (conts V a') d = Some (Some s).
Proof. exact (C17_lemma V dflt). Qed.
Theorem C17_self_assignment_destroys : forall w a c s, good V w a -> nth_error (conts V a) c = Some (Some s) ->
  exists w' a', step V dflt (OAssign V c c) w = Ok (OutUnit V, w') /\ good V w' a' /\ nth_error (conts V a') c = Some (Some (repeat None (List.length s))).
Proof. exact (self_assign V dflt). Qed.

(** C45: two equal names come from the same path and the same object *)
Theorem C45_file_names_never_collide : forall suffix p k p' k', no_char "/"%char suffix ->
  file_name suffix p k = file_name suffix p' k' -> p = p' /\ k = k'.
Proof. exact (fun s p k p' k' H => file_name_inj s H p p' k k'). Qed.

Lemma mps_name_inj : forall suffix path, no_char "/"%char suffix -> forall i j, file_name suffix path (KMps i) = file_name suffix path (KMps j) -> i = j.
Proof. intros s p H i j E. apply file_name_inj in E; auto. destruct E as [_ E]. injection E as E. exact E. Qed.

(** C18 *)
Theorem C18_dump_then_load : forall suffix path, no_char "/"%char suffix -> let name := fun i => file_name suffix path (KMps i) in
  forall w a c d ys z rl, good V w a -> c <> d -> nth_error (conts V a) c = Some (Some (map Some ys)) -> nth_error (conts V a) d = Some (Some z) ->
  List.length z = List.length ys ->
  exists w1 w2 a2, op_dump_all V dflt c name rl w = Ok w1 /\ op_load_all V dflt d name w1 = Ok (true, w2) /\ good V w2 a2 /\
    nth_error (conts V a2) d = Some (Some (map Some ys)) /\
    nth_error (conts V a2) c = Some (Some (if rl then repeat None (List.length ys) else map Some ys)) /\
    (forall e, e <> c -> e <> d -> nth_error (conts V a2) e = nth_error (conts V a) e) /\
    (forall n, (forall i, i < List.length ys -> n <> name i) -> afs V a2 n = afs V a n).
Proof. exact (fun s p H => dump_load_ok V dflt _ (mps_name_inj s p H)). Qed.
(** an empty slot is written as a default element *)
Theorem C18_dump_writes_every_slot : forall suffix path, no_char "/"%char suffix -> let name := fun i => file_name suffix path (KMps i) in
  forall w a c y rl, good V w a -> nth_error (conts V a) c = Some (Some y) ->
  exists w' f', op_dump_all V dflt c name rl w = Ok w' /\ files_after V dflt name y (List.length y) (afs V a) f' /\
    good V w' (mkA V (upd (conts V a) c (Some (after_dump V dflt rl y (List.length y)))) f').
Proof. exact (fun s p H => dump_all_ok V dflt _ (mps_name_inj s p H)). Qed.
(** Load returns true iff all files exist; otherwise the slot of the first missing file holds a default element, later slots are untouched *)
Theorem C18_load_outcome : forall suffix path, no_char "/"%char suffix -> let name := fun i => file_name suffix path (KMps i) in
  forall w a c y, good V w a -> nth_error (conts V a) c = Some (Some y) -> exists w' y',
  op_load_all V dflt c name w = Ok (match first_missing V name (afs V a) 0 (List.length y) with None => true | Some _ => false end, w') /\
  good V w' (mkA V (upd (conts V a) c (Some y')) (afs V a)) /\
  y' = match first_missing V name (afs V a) 0 (List.length y) with
       | None => map (afs V a) (map name (seq 0 (List.length y)))
       | Some k => upd (loaded V name (afs V a) y k) k (Some dflt)
       end.
Proof. exact (fun s p H => load_all_ok V dflt _ (mps_name_inj s p H)). Qed.
End Own.

(** concrete cases *)
Local Open Scope string_scope.
Example C16_history : outs_of (runs nat 0 ex_ops (w0 nat)) = Some
  [OutUnit nat; OutUnit nat; OutUnit nat; OutUnit nat; OutUnit nat; OutV nat 7; OutUnit nat; OutV nat 8; OutUnit nat;
   OutUnit nat; OutN nat 0; OutB nat true; OutV nat 0; OutB nat false; OutV nat 0; OutUnit nat; OutB nat true; OutUnit nat; OutUnit nat; OutUnit nat].
Proof. exact ex_ops_run. Qed.
(** a reachable state with two containers that meets the hypotheses of C17 and C18 *)
Example C18_state : exists w a, good nat w a /\ nth_error (conts nat a) 0 = Some (Some (map Some [4; 5])) /\ nth_error (conts nat a) 1 = Some (Some [None; Some 6]) /\
  List.length [None; Some 6] = List.length [4; 5] /\ no_char "/"%char "qlten".
Proof.
  set (l := [ONew nat 2; OPut nat 0 0 4; OPut nat 0 1 5; ONew nat 2; OPut nat 1 1 6]).
  eexists; eexists. split; [eapply (reached nat 0 l); [vm_compute; reflexivity|vm_compute; reflexivity]|].
  split; [reflexivity|]. split; [reflexivity|]. split; [reflexivity|]. simpl. repeat (split; [discriminate|]). exact I.
Qed.
Example C45_names : map (file_name "qlten" "tmp") [KMps 12; KEnv true 3; KEnv false 12; KOp true 1 20] =
  ["tmp/mps_ten12.qlten"; "tmp/lenv3.qlten"; "tmp/renv12.qlten"; "tmp/lop1Comp20.qlten"].
Proof. reflexivity. Qed.

Print Assumptions C16_exact_ownership.
Print Assumptions C16_nothing_leaks.
Print Assumptions C17_copy_is_equal.
Print Assumptions C17_assignment_is_equal.
Print Assumptions C17_copies_are_independent.
Print Assumptions C17_self_assignment_destroys.
Print Assumptions C18_dump_then_load.
Print Assumptions C18_dump_writes_every_slot.
Print Assumptions C18_load_outcome.
Print Assumptions C45_file_names_never_collide.
