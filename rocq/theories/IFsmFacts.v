(** No call of AddPath returns normally: invariant of the object and case analysis. *)
From Coq Require Import List Arith Lia Bool ZArith.
From Verif Require Import Base IFsm.
Import ListNotations.

Section Facts.
Variable Op : Type.
Variable eqO : Op -> Op -> bool.
Notation ifsm := (ifsm Op).
Notation links := (links Op).

(** keys are the ready and the final node of the site itself; a link from the ready node leads to the next site's ready node,
    or to a state >= 1 *)
Definition good_links (s : nat) (l : links) : Prop :=
  forall a m, at_ Op l a = Some m -> fst a = s /\ (snd a <= 0)%Z /\
    (snd a = 0%Z -> forall o t, find_op Op eqO m o = Some t -> t = (s + 1, 0%Z) \/ (1 <= snd t)%Z).
Definition good (f : ifsm) : Prop := forall s l, nth_error (sets f) s = Some l -> good_links s l.

Lemma node_eqb_spec : forall a b, node_eqb a b = true <-> a = b.
Proof.
  intros [s x] [s' y]. unfold node_eqb. cbn. rewrite andb_true_iff, Nat.eqb_eq, Z.eqb_eq. split; [intros [-> ->]; reflexivity|intros [= -> ->]; auto].
Qed.
Lemma find_app' : forall A (p : A -> bool) l x, find p (l ++ [x]) = match find p l with Some y => Some y | None => if p x then Some x else None end.
Proof. intros A p l x. induction l as [|h l IH]; cbn; [reflexivity|]. destruct (p h); auto. Qed.
Lemma find_insert : forall m o t o' t', find_op Op eqO (insert_op Op eqO m o t) o' = Some t' -> find_op Op eqO m o' = Some t' \/ t' = t.
Proof.
  intros m o t o' t' H. unfold insert_op in H. destruct (find_op Op eqO m o) eqn:F; [left; exact H|].
  unfold find_op in H. rewrite find_app' in H. destruct (find (fun p => eqO (fst p) o') m) eqn:G.
  - left. unfold find_op. rewrite G. exact H.
  - destruct (eqO (fst (o, t)) o'); [|discriminate]. right. injection H as <-. reflexivity.
Qed.
Lemma at_insert : forall (l : links) a o t b m', at_ Op (insert_at Op eqO l a o t) b = Some m' ->
  exists m, at_ Op l b = Some m /\ (m' = m \/ m' = insert_op Op eqO m o t).
Proof.
  intros l a o t b m'. unfold at_, insert_at. induction l as [|[c m] l IH]; cbn; [discriminate|].
  destruct (node_eqb c a) eqn:Ea; cbn; destruct (node_eqb c b) eqn:Eb; cbn.
  - intros H. injection H as <-. eauto.
  - exact IH.
  - intros H. injection H as <-. eauto.
  - exact IH.
Qed.
Lemma insert_good : forall s l a o t, good_links s l -> (1 <= snd t)%Z -> good_links s (insert_at Op eqO l a o t).
Proof.
  intros s l a o t G Ht b m' H. apply at_insert in H. destruct H as [m [H1 H2]]. destruct (G b m H1) as [A [B C]].
  split; [exact A|]. split; [exact B|]. intros Z0 o' t' F. destruct H2 as [->| ->]; [apply (C Z0 _ _ F)|].
  apply find_insert in F. destruct F as [F| ->]; [apply (C Z0 _ _ F)|right; exact Ht].
Qed.
Lemma open_good : forall f ls tgt a o f' r, good f -> open_node Op eqO f ls tgt a o = (f', r) ->
  good f' /\ cell f' = cell f /\ (forall t, r = Ok t -> (1 <= snd t)%Z).
Proof.
  intros f ls tgt a o f' r G H. unfold open_node in H. destruct (vget (mids f) tgt) as [k| |] eqn:Ek; try (injection H as <- <-; split; [exact G|split; [reflexivity|discriminate]]).
  cbn [sets set_mids] in H. destruct (vget (sets f) ls) as [l| |] eqn:El; try (injection H as <- <-; split; [exact G|split; [reflexivity|discriminate]]).
  destruct (at_ Op l a); [|injection H as <- <-; split; [exact G|split; [reflexivity|discriminate]]].
  injection H as <- <-. split; [|split; [reflexivity|intros t [= <-]; cbn; lia]].
  intros s l' H. cbn [sets set_sets set_mids] in H. rewrite nth_error_upd in H. destruct ((ls =? s) && _) eqn:Es; [|apply (G s l' H)].
  apply andb_true_iff in Es. destruct Es as [Es _]. apply Nat.eqb_eq in Es. subst ls. injection H as <-. apply insert_good; [|cbn; lia].
  apply G. unfold vget in El. destruct (nth_error (sets f) s) eqn:F; [injection El as ->; reflexivity|discriminate].
Qed.

(** from a node that is no key the walk does not go on *)
Definition dead (n : nat) (a : node) : Prop := (1 <= snd a)%Z \/ (snd a = 0%Z /\ fst a <> 0).
Lemma dead_no_key : forall f a ls l, good f -> dead (cell f) a -> site_of a = Some ls -> nth_error (sets f) ls = Some l -> at_ Op l a = None.
Proof.
  intros f a ls l G D S N. destruct (at_ Op l a) eqn:E; [|reflexivity]. exfalso. destruct (G _ _ N a _ E) as [A [B _]].
  unfold site_of in S. destruct (snd a <? 0)%Z; [discriminate|]. injection S as <-. destruct D as [D|[D1 D2]]; [lia|]. rewrite D1 in A. cbn in A. contradiction.
Qed.
Lemma walk_dead : forall f o ops a op acc f' r, good f -> dead (cell f) a -> walk Op eqO f (o :: ops) a op acc = (f', r) -> good f' /\ cell f' = cell f /\ forall x, r <> Ok x.
Proof.
  intros f o ops a op acc f' r G D H. cbn [walk] in H.
  assert (K : good f /\ cell f = cell f /\ forall x, @Ub (node * bool * list node) <> Ok x) by (split; [exact G|split; [reflexivity|discriminate]]).
  assert (K' : good f /\ cell f = cell f /\ forall x, @Abort (node * bool * list node) <> Ok x) by (split; [exact G|split; [reflexivity|discriminate]]).
  destruct (site_of a) as [ls|] eqn:S; [|injection H as <- <-; exact K].
  destruct (cell f =? 0); [injection H as <- <-; exact K|].
  destruct op.
  - unfold open_node in H. destruct (vget (mids f) _) as [k| |] eqn:Ek; try (injection H as <- <-; exact K).
    cbn [sets set_mids] in H. unfold vget in H. destruct (nth_error (sets f) ls) as [l|] eqn:N; [|injection H as <- <-; exact K].
    rewrite (dead_no_key f a ls l G D S N) in H. injection H as <- <-. split; [exact G|split; [reflexivity|discriminate]].
  - unfold vget in H. destruct (nth_error (sets f) ls) as [l|] eqn:N; [|injection H as <- <-; exact K].
    rewrite (dead_no_key f a ls l G D S N) in H. injection H as <- <-. exact K'.
Qed.

Lemma add_path_never : forall dbg f head ops f' r, good f -> add_path Op eqO dbg f head ops = (f', r) -> good f' /\ cell f' = cell f /\ r <> Ok tt.
Proof.
  intros dbg f head ops f' r G H. unfold add_path in H.
  assert (K : good f /\ cell f = cell f /\ @Ub unit <> Ok tt) by (split; [exact G|split; [reflexivity|discriminate]]).
  assert (K' : good f /\ cell f = cell f /\ @Abort unit <> Ok tt) by (split; [exact G|split; [reflexivity|discriminate]]).
  destruct (dbg && _); [injection H as <- <-; exact K'|].
  destruct (Nat.eqb_spec (cell f) 0) as [Ec|Ec]; [injection H as <- <-; exact K|].
  destruct (Nat.eqb_spec (length ops) 0) as [El|El]; [injection H as <- <-; exact K'|].
  destruct ops as [|o1 ops]; [cbn in El; lia|]. clear El.
  set (a := (head mod cell f, 0%Z)) in *.
  assert (W : forall f1 p b acc, walk Op eqO f (removelast (o1 :: ops)) a false [a] = (f1, Ok (p, b, acc)) -> good f1 /\ cell f1 = cell f /\ (b = true -> (1 <= snd p)%Z)).
  { intros f1 p b acc W. destruct ops as [|o2 ops].
    - cbn in W. injection W as <- <- <- <-. split; [exact G|]. split; [reflexivity|discriminate].
    - change (removelast (o1 :: o2 :: ops)) with (o1 :: removelast (o2 :: ops)) in W.
      cbn [walk] in W. change (site_of a) with (Some 0) in W. rewrite (proj2 (Nat.eqb_neq _ _) Ec) in W.
      unfold vget at 1 in W. destruct (nth_error (sets f) 0) as [l|] eqn:N; [|discriminate].
      destruct (at_ Op l a) as [m|] eqn:A; [|discriminate]. destruct (G 0 l N a m A) as [_ [_ C]]. specialize (C eq_refl o1).
      assert (O : forall f2 r2, open_node Op eqO f 0 ((0 + 1) mod cell f) a o1 = (f2, r2) ->
        match r2 with Ok t => walk Op eqO f2 (removelast (o2 :: ops)) t true ([a] ++ [t]) | Ub => (f2, Ub) | Abort => (f2, Abort) end = (f1, Ok (p, b, acc)) ->
        good f1 /\ cell f1 = cell f /\ (b = true -> (1 <= snd p)%Z)).
      { intros f2 r2 O W2. destruct (open_good _ _ _ _ _ _ _ G O) as [G2 [C2 T2]]. destruct r2 as [t| |]; try discriminate. specialize (T2 t eq_refl).
        destruct (removelast (o2 :: ops)) as [|o3 os].
        - cbn in W2. injection W2 as <- <- <- <-. auto.
        - exfalso. destruct (walk_dead f2 o3 os t true ([a] ++ [t]) f1 _ G2 (or_introl T2) W2) as [_ [_ X]]. apply (X _ eq_refl). }
      destruct (find_op Op eqO m o1) as [t|] eqn:F.
      + specialize (C t eq_refl). assert (Hn : (snd t =? -1)%Z = false) by (apply Z.eqb_neq; destruct C as [->|C]; cbn; lia).
        rewrite Hn in W. cbn [negb] in W. destruct (removelast (o2 :: ops)) as [|o3 os].
        * cbn in W. injection W as <- <- <- <-. split; [exact G|]. split; [reflexivity|discriminate].
        * exfalso. assert (D : dead (cell f) t) by (destruct C as [->|C]; [right; cbn; split; [reflexivity|lia]|left; exact C]).
          destruct (walk_dead f o3 os t false ([a] ++ [t]) f1 _ G D W) as [_ [_ X]]. apply (X _ eq_refl).
      + destruct (open_node Op eqO f 0 ((0 + 1) mod cell f) a o1) as [f2 r2] eqn:E2. apply (O f2 r2 eq_refl W). }
  assert (W' : forall f1 r1, walk Op eqO f (removelast (o1 :: ops)) a false [a] = (f1, r1) -> good f1 /\ cell f1 = cell f).
  { intros f1 r1 W1. destruct ops as [|o2 ops].
    - cbn in W1. injection W1 as <- <-. auto.
    - change (removelast (o1 :: o2 :: ops)) with (o1 :: removelast (o2 :: ops)) in W1, W.
      cbn [walk] in W1, W. change (site_of a) with (Some 0) in W1, W. rewrite (proj2 (Nat.eqb_neq _ _) Ec) in W1.
      unfold vget at 1 in W1. destruct (nth_error (sets f) 0) as [l|] eqn:N; [|injection W1 as <- <-; auto].
      destruct (at_ Op l a) as [m|] eqn:A; [|injection W1 as <- <-; auto]. destruct (G 0 l N a m A) as [_ [_ C]]. specialize (C eq_refl o1). clear W.
      assert (O : forall f2 r2, open_node Op eqO f 0 ((0 + 1) mod cell f) a o1 = (f2, r2) ->
        match r2 with Ok t => walk Op eqO f2 (removelast (o2 :: ops)) t true ([a] ++ [t]) | Ub => (f2, Ub) | Abort => (f2, Abort) end = (f1, r1) -> good f1 /\ cell f1 = cell f).
      { intros f2 r2 O W2. destruct (open_good _ _ _ _ _ _ _ G O) as [G2 [C2 T2]]. destruct r2 as [t| |]; try (injection W2 as <- <-; auto). specialize (T2 t eq_refl).
        destruct (removelast (o2 :: ops)) as [|o3 os].
        - cbn in W2. injection W2 as <- <-. auto.
        - destruct (walk_dead f2 o3 os t true ([a] ++ [t]) f1 _ G2 (or_introl T2) W2) as [X [Y _]]. split; [exact X|]. congruence. }
      destruct (find_op Op eqO m o1) as [t|] eqn:F.
      + specialize (C t eq_refl). assert (Hn : (snd t =? -1)%Z = false) by (apply Z.eqb_neq; destruct C as [->|C]; cbn; lia).
        rewrite Hn in W1. cbn [negb] in W1. destruct (removelast (o2 :: ops)) as [|o3 os].
        * cbn in W1. injection W1 as <- <-. auto.
        * assert (D : dead (cell f) t) by (destruct C as [->|C]; [right; cbn; split; [reflexivity|lia]|left; exact C]).
          destruct (walk_dead f o3 os t false ([a] ++ [t]) f1 _ G D W1) as [X [Y _]]. auto.
      + destruct (open_node Op eqO f 0 ((0 + 1) mod cell f) a o1) as [f2 r2] eqn:E2. apply (O f2 r2 eq_refl W1). }
  destruct (walk Op eqO f (removelast (o1 :: ops)) a false [a]) as [f1 r1] eqn:Ew.
  destruct (W' f1 r1 eq_refl) as [G1 C1]. clear W'.
  destruct r1 as [[[p b] acc]| |]; try (injection H as <- <-; split; [exact G1|split; [exact C1|discriminate]]).
  destruct (W f1 p b acc eq_refl) as [_ [_ Hb]]. clear W.
  destruct (dbg && _); [injection H as <- <-; split; [exact G1|split; [exact C1|discriminate]]|].
  destruct b; [|injection H as <- <-; split; [exact G1|split; [exact C1|discriminate]]]. specialize (Hb eq_refl).
  unfold vget in H. destruct (nth_error (sets f1) _) as [l|] eqn:N; [|injection H as <- <-; split; [exact G1|split; [exact C1|discriminate]]].
  destruct (last (map Some (o1 :: ops)) None) as [o|]; [|injection H as <- <-; split; [exact G1|split; [exact C1|discriminate]]].
  destruct (at_ Op l p) as [m|] eqn:A; [|injection H as <- <-; split; [exact G1|split; [exact C1|discriminate]]].
  exfalso. destruct (G1 _ _ N p m A) as [_ [B _]]. lia.
Qed.

Lemma new_good : forall dbg n ids f, ifsm_new Op dbg n ids = Ok f -> good f.
Proof.
  intros dbg n ids f H. unfold ifsm_new in H. inv_bind H. inv_bind H. injection H as <-. unfold good. cbn [sets].
  refine (proj2 (for_loop_inv_partial (list links) (fun i acc => length acc = i /\ forall s l, nth_error acc s = Some l -> good_links s l) _ n 0 [] a0 _ _ Hb0)).
  - split; [reflexivity|]. intros [|s] l X; discriminate.
  - intros i x y Hi [HL HG] E. inv_bind E. injection E as <-. split; [rewrite app_length; cbn; lia|]. intros s l X.
    destruct (Nat.lt_ge_cases s (length x)) as [Hs|Hs]; [rewrite nth_error_app1 in X by exact Hs; apply HG; exact X|].
    rewrite nth_error_app2 in X by exact Hs. destruct (s - length x) as [|k] eqn:Ek; [|destruct k; discriminate]. injection X as <-.
    assert (Ei : s = i) by lia. rewrite Ei. clear. intros b m A. unfold at_, new_links in A. cbn [find fst option_map snd] in A.
    destruct (node_eqb (i, 0%Z) b) eqn:E1; [apply node_eqb_spec in E1; subst b; cbn in A; injection A as <-|destruct (node_eqb (i, (-1)%Z) b) eqn:E2; [|discriminate]; apply node_eqb_spec in E2; subst b; cbn in A; injection A as <-].
    + split; [reflexivity|]. split; [cbn; lia|]. intros _ o t F. unfold find_op in F. cbn in F. destruct (eqO a1 o); [injection F as <-; auto|discriminate].
    + split; [reflexivity|]. split; [cbn; lia|]. cbn. discriminate.
Qed.

Lemma add_terms_never : forall dbg ts f, good f -> Forall (fun r => r <> Ok tt) (snd (add_terms Op eqO dbg f ts)).
Proof.
  intros dbg. induction ts as [|[s c] ts IH]; intros f G; [constructor|]. cbn [add_terms].
  assert (K : forall f' r, add_term Op eqO dbg f s c = (f', r) -> good f' /\ r <> Ok tt).
  { intros f' r H. unfold add_term in H. destruct s as [|h s]; [injection H as <- <-; split; [exact G|discriminate]|].
    destruct c as [ops| |]; try (injection H as <- <-; split; [exact G|discriminate]). destruct (add_path_never _ _ _ _ _ _ G H) as [X [_ Y]]. auto. }
  destruct (add_term Op eqO dbg f s c) as [f' r]. destruct (K f' r eq_refl) as [G' Hr]. specialize (IH f' G').
  destruct (add_terms Op eqO dbg f' ts) as [f'' rs]. cbn in *. constructor; assumption.
Qed.
End Facts.
