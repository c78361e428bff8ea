(** A concrete instance of the single-site run, and the case of one site. *)
From Coq Require Import List Arith Lia Bool.
From Verif Require Import Base Disk SweepSpec DiskFacts TwoSite TwoSiteFacts SingleSite SingleSpec SingleFacts.
Import ListNotations.

(** tensors are numbers, environments list what they were built from, the state records the noise and the environments seen last *)
Definition es_triv (s : side) : list nat := [].
Definition es_grow (s : side) (i : nat) (e : list nat) (t : nat) : list nat := t :: e.
Definition es_st : Type := nat * list nat * list nat.
Definition es_solve (rt : bool) (i : nat) (l : list nat) (a : nat) (r : list nat) (b : nat) (s : es_st) : nat * nat * es_st :=
  ((3 * a + b + 2 + length l) mod 17, (b + 2 * a + hd 0 l + 5 * hd 0 r) mod 19, (fst (fst s) + 1, l, r)).
Definition es_carry (s : es_st) : es_st := (fst (fst s), [], []).
Definition es_two (rt : bool) (i : nat) (l : list nat) (a b : nat) (r : list nat) : nat * nat * es_st := (a, b, (0, l, r)).
Definition es_c (a b : nat) : nat * nat := (a, b).
Definition es_ts (i : nat) : nat := i + 5.
Definition es_w (N : nat) : world nat (list nat) es_st := mkW _ _ _ N fnone 0 fnone fnone None None (fun i => Some (es_ts i)) fnone fnone false.
Lemma es_startable : startable1 nat (list nat) es_st es_triv es_grow 4 es_ts (es_w 4).
Proof. repeat split; auto; try discriminate. Qed.
Definition es_noises : list es_st := [(7, [], []); (3, [], [])].
Definition es_run (k : nat) (w : world nat (list nat) es_st) := run_single _ _ _ 0 [] es_triv es_grow es_c es_c es_solve es_noises (0, [], []) es_carry es_two true k w.
Definition es_spec (k : nat) := sweeps1 nat (list nat) es_st es_triv es_grow es_solve 4 (preset1 es_st es_noises (0, [], [])) es_carry k 0 (es_ts, None).

Section One.
Variables T E St : Type.
Variables (dT : T) (dE : E) (triv : side -> E) (grow : side -> nat -> E -> T -> E).
Variables (canoL canoR : T -> T -> T * T).
Variable solve1 : bool -> nat -> E -> T -> E -> T -> St -> T * T * St.
Variable noises : list St.
Variable zero : St.
Variable carry : St -> St.
Variable solve2 : bool -> nat -> E -> T -> T -> E -> T * T * St.
Variable dbg : bool.
Notation exec := (exec T E St dT dE triv grow solve2 canoL canoR dbg).
Notation sexec := (sexec T E St dT dE triv grow canoL canoR solve1 noises zero carry solve2 dbg).
Notation run := (run_single T E St dT dE triv grow canoL canoR solve1 noises zero carry solve2 dbg).
Notation preset1 := (preset1 St noises zero).
Notation nm := (nm T E St). Notation mm := (mm T E St). Notation dm := (dm T E St). Notation tmp := (tmp T E St). Notation eng := (eng T E St).
(** the state a run of [n] sweeps starting with sweep [k] ends in when nothing is updated *)
Fixpoint idle (n k : nat) (s : option St) : option St := match n with O => s | S m => idle m (S k) (begin1 St preset1 carry k s) end.
Lemma idle_sweeps : forall n k w q, exists w', sexec (flat_map (sweep1 1) (seq k n) ++ q) w = sexec q w' /\ nm w' = nm w /\ mm w' = mm w /\ dm w' = dm w /\ eng w' = idle n k (eng w).
Proof.
  induction n as [|n IH]; intros k w q; [exists w; auto|]. cbn [seq flat_map]. rewrite <- app_assoc. unfold sweep1 at 1. cbn [Nat.sub seq rev flat_map app]. cbn [SingleSite.sexec SingleSite.sexec1 bind exec1].
  match goal with |- exists w', sexec _ ?v = _ /\ _ => destruct (IH (S k) v q) as [w' [A [B [C [D F]]]]] end. exists w'. rewrite A. cbn in B, C, D, F. split; auto.
Qed.
Lemma idle_some : forall n k s, (k <> 0 -> s <> None) -> n + k <> 0 -> idle n k s <> None.
Proof.
  induction n as [|n IH]; intros k s H HN; cbn [idle]; [apply H; lia|]. apply IH; [|lia]. intros _. unfold begin1.
  destruct (preset1 k) eqn:EP; [discriminate|]. destruct k; [exfalso; exact (preset_first _ noises zero EP)|]. destruct s; [discriminate|]. exfalso. apply H; auto.
Qed.
Theorem one_site1 : forall t k w, nm w = 1 -> mm w 0 = None -> dm w 0 = Some t -> exists s w', run (S k) w = Ok (s, w') /\ idle (S k) 0 None = Some s /\ dm w' 0 = Some t.
Proof.
  intros t k w H1 H2 H3. unfold run_single. rewrite H1. unfold single_site.
  assert (P : exists w1, exec (prelude1 1 (tmp w)) (set_eng T E St None w) = Ok w1 /\ nm w1 = 1 /\ mm w1 0 = Some t /\ dm w1 = dm w /\ eng w1 = None).
  { unfold prelude1, init_envs. destruct (tmp w); cbn [Nat.sub seq flat_map app].
    - rewrite (ex_LoadM _ _ _ _ _ _ _ _ _ _ _ _ _ _ t); [|cbn; lia|exact H3]. eexists. split; [reflexivity|]. fs. auto.
    - rewrite ex_Mkdir. rewrite (ex_LoadM _ _ _ _ _ _ _ _ _ _ _ _ _ _ t); [|cbn; lia|exact H3].
      rewrite (ex_SetAcc _ _ _ _ _ _ _ _ _ _ _ _ _ _ _ t); [|cbn; lia|fs; auto]. rewrite (ex_WriteAcc _ _ _ _ _ _ _ _ _ _ _ _ _ _ _ (triv R)); [|reflexivity].
      rewrite (ex_LoadM _ _ _ _ _ _ _ _ _ _ _ _ _ _ t); [|cbn; lia|exact H3].
      rewrite (ex_SetAcc _ _ _ _ _ _ _ _ _ _ _ _ _ _ _ t); [|cbn; lia|fs; auto]. rewrite (ex_WriteAcc _ _ _ _ _ _ _ _ _ _ _ _ _ _ _ (triv L)); [|reflexivity].
      rewrite ex_FreeM; [|cbn; lia]. rewrite ex_EmptyM; [|intros i Hi; cbn in Hi; rewrite H1 in Hi; assert (i = 0) by lia; subst i; fs; auto].
      rewrite (ex_LoadM _ _ _ _ _ _ _ _ _ _ _ _ _ _ t); [|cbn; lia|exact H3]. eexists. split; [reflexivity|]. fs. auto. }
  destruct P as [w1 [A1 [A2 [A3 [A4 A5]]]]]. rewrite (sexec_Bs _ _ _ _ _ _ _ _ _ _ _ _ _ _ _ _ _ _ _ A1).
  destruct (idle_sweeps (S k) 0 w1 [B1 (DumpM 0 true)]) as [w2 [C1 [C2 [C3 [C4 C5]]]]]. rewrite C1. change [B1 (DumpM 0 true)] with (map B1 [DumpM 0 true]). rewrite sexec_B.
  rewrite (ex_DumpM _ _ _ _ _ _ _ _ _ _ _ _ _ _ _ t); [|lia|rewrite C3; auto]. cbn [Disk.exec bind]. fs. rewrite C5, A5.
  destruct (idle (S k) 0 None) as [s|] eqn:EI; [|exfalso; revert EI; apply idle_some; [congruence|lia]]. cbn [use bind]. eexists s, _. split; [reflexivity|]. split; [reflexivity|]. fs. auto.
Qed.
End One.
