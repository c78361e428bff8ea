(** The threaded sweep: locations, independence, and agreement with the serial sweep. *)
From Coq Require Import List Arith Lia Bool.
From Verif Require Import Base Disk DiskFacts TwoSite Noise Threads ThreadsFacts.
Import ListNotations.

(** slots of the MPS and of the environments, files, the number of environment slots, the energy *)
Inductive loc : Type := LM (i : nat) | LE (s : side) (i : nat) | FM (i : nat) | FE (s : side) (i : nat) | NE | EN.
Section Sweep.
Variables T E St : Type.
Variables (dT : T) (dE : E) (triv : side -> E) (grow : side -> nat -> E -> T -> E).
Variables (canoL canoR : T -> T -> T * T).
Variable solve3 : bool -> nat -> E -> T -> T -> E -> T -> St -> T * T * T * St.
Variable preset : nat -> option St.
Variable carry : St -> St.
Variable solve2 : bool -> nat -> E -> T -> T -> E -> T * T * St.
Variable dbg : bool.
Notation world := (world T E St).
Notation nexec1 := (nexec1 T E St dT dE triv grow canoL canoR solve3 preset carry solve2 dbg).
Notation nexec := (nexec T E St dT dE triv grow canoL canoR solve3 preset carry solve2 dbg).
Notation nm := (nm T E St). Notation mm := (mm T E St). Notation ne := (ne T E St). Notation dm := (dm T E St).
Notation le_ := (le_ T E St). Notation de_ := (de_ T E St). Notation eng := (eng T E St).
Variable N : nat.
Inductive val : Type := VT (o : option T) | VE (o : option E) | VS (o : option St) | VN (n : nat).
Notation view := (loc -> val).
Notation pmap := (pmap loc val).
Definition loc_eqb (a b : loc) : bool :=
  match a, b with
  | LM i, LM j | FM i, FM j => i =? j
  | LE L i, LE L j | LE R i, LE R j | FE L i, FE L j | FE R i, FE R j => i =? j
  | NE, NE | EN, EN => true
  | _, _ => false
  end.
Lemma loc_eqb_spec a b : reflect (a = b) (loc_eqb a b).
Proof. destruct a as [i|[] i|i|[] i| |], b as [j|[] j|j|[] j| |]; cbn; try (constructor; congruence); destruct (Nat.eqb_spec i j); constructor; congruence. Qed.
Fixpoint put (l : list (loc * val)) : pmap := match l with [] => fun _ => None | (a, x) :: l => fun b => if loc_eqb b a then Some x else put l b end.
Definition rt_ (v : view) (l : loc) : option T := match v l with VT o => o | _ => None end.
Definition re_ (v : view) (l : loc) : option E := match v l with VE o => o | _ => None end.
Definition rs_ (v : view) (l : loc) : option St := match v l with VS o => o | _ => None end.
Definition rn_ (v : view) : nat := match v NE with VN n => n | _ => 0 end.
(** the instructions of the sweep on views; dumping an empty slot is an error here *)
Definition astep (c : ninstr) (v : view) : option pmap :=
  match c with
  | B (LoadM i) => if i <? N then match rt_ v (FM i) with Some t => Some (put [(LM i, VT (Some t))]) | None => None end else None
  | B (DumpM i true) => if i <? N then match rt_ v (LM i) with Some t => Some (put [(FM i, VT (Some t)); (LM i, VT None)]) | None => None end else None
  | B (NewEnvs n) => Some (fun l => match l with LE _ _ => Some (VE None) | NE => Some (VN n) | _ => None end)
  | B (LoadE s i) => if i <? rn_ v then match re_ v (FE s i) with Some t => Some (put [(LE s i, VE (Some t))]) | None => None end else None
  | B (DumpE s i) => if i <? rn_ v then match re_ v (LE s i) with Some t => Some (put [(FE s i, VE (Some t))]) | None => None end else None
  | B (FreeE s i) => if i <? rn_ v then Some (put [(LE s i, VE None)]) else None
  | B (RmE s i) => Some (put [(FE s i, VE None)])
  | Upd3 rt l nn =>
      if (l <? rn_ v) && (N - (l + 2) <? rn_ v) && (l + 1 <? N) && (nn <? N) && ((if rt then l + 1 else N - (l + 1)) <? rn_ v) then
        match re_ v (LE L l), re_ v (LE R (N - (l + 2))), rt_ v (LM l), rt_ v (LM (l + 1)), rt_ v (LM nn), rs_ v EN with
        | Some el, Some er, Some a, Some b, Some c, Some s =>
            let '(a', b', c', s') := solve3 rt l el a b er c s in
            Some (put [(EN, VS (Some s')); (if rt then (LE L (l + 1), VE (Some (grow L l el a'))) else (LE R (N - (l + 1)), VE (Some (grow R (l + 1) er b'))));
                       (LM (l + 1), VT (Some b')); (LM l, VT (Some a')); (LM nn, VT (Some c'))])
        | _, _, _, _, _, _ => None
        end
      else None
  | Start k => Some (put [(EN, VS (match preset k with Some s => Some s | None => option_map carry (rs_ v EN) end))])
  | _ => None
  end.
Definition rd (c : ninstr) (l : loc) : Prop :=
  match c with
  | B (LoadM i) => l = FM i
  | B (DumpM i true) => l = LM i
  | B (LoadE s i) => l = FE s i \/ l = NE
  | B (DumpE s i) => l = LE s i \/ l = NE
  | B (FreeE s i) => l = NE
  | B (RmE s i) => False
  | B (NewEnvs _) => False
  | Upd3 rt i nn => l = LE L i \/ l = LE R (N - (i + 2)) \/ l = LM i \/ l = LM (i + 1) \/ l = LM nn \/ l = EN \/ l = NE
  | Start k => l = EN
  | _ => True
  end.
Definition wr (c : ninstr) (l : loc) : Prop :=
  match c with
  | B (LoadM i) => l = LM i
  | B (DumpM i true) => l = FM i \/ l = LM i
  | B (LoadE s i) => l = LE s i
  | B (DumpE s i) => l = FE s i
  | B (FreeE s i) => l = LE s i
  | B (RmE s i) => l = FE s i
  | B (NewEnvs _) => l = NE \/ exists s i, l = LE s i
  | Upd3 rt i nn => l = EN \/ l = (if rt then LE L (i + 1) else LE R (N - (i + 1))) \/ l = LM (i + 1) \/ l = LM i \/ l = LM nn
  | Start k => l = EN
  | _ => True
  end.
Lemma put_in l a : put l a <> None -> In a (map fst l).
Proof. induction l as [|[b x] l IH]; cbn; [congruence|]. destruct (loc_eqb_spec a b); [auto|intros; right; auto]. Qed.
Lemma put_some l p a : Some (put l) = Some p -> p a <> None -> In a (map fst l).
Proof. intros H. apply (f_equal (fun o => match o with Some q => q a | None => None end)) in H. cbn [fst] in H. rewrite <- H. apply put_in. Qed.
Lemma astep_rd c v v' : (forall l, rd c l -> v l = v' l) -> astep c v = astep c v'.
Proof.
  destruct c as [[|i|i [|]|i| |n|s i|s i|s i|s i|s i|s i|s i|rt i|i|i]|rt i nn|k]; intros H; auto; cbn [rd] in H; unfold astep, rt_, re_, rs_, rn_; repeat (rewrite <- H by tauto); auto.
Qed.
Ltac opt := repeat match goal with
    | H : (if ?b then _ else _) = Some _ |- _ => destruct b eqn:?; try discriminate H
    | H : match ?o with Some _ => _ | None => _ end = Some _ |- _ => destruct o eqn:?; try discriminate H
    end.
Lemma astep_wr c v p l : astep c v = Some p -> p l <> None -> wr c l.
Proof.
  destruct c as [[|i|i [|]|i| |n|s i|s i|s i|s i|s i|s i|s i|rt i|i|i]|rt i nn|k]; cbn [astep wr]; auto; intros HS HP; opt; try (apply (put_some _ _ _ HS) in HP; cbn in HP; intuition congruence).
  - injection HS as <-. destruct l; cbn; auto; try congruence. right. eauto.
  - destruct (solve3 _ _ _ _ _ _ _ _) as [[[a b] c] s']. apply (put_some _ _ _ HS) in HP. cbn in HP. destruct rt; cbn in *; intuition congruence.
Qed.
(** views of worlds *)
Record Vw (w : world) (v : view) : Prop := {
  v_nm : nm w = N; v_ne : v NE = VN (ne w); v_en : v EN = VS (eng w);
  v_lm : forall i, v (LM i) = VT (mm w i); v_fm : forall i, v (FM i) = VT (dm w i);
  v_le : forall s i, v (LE s i) = VE (le_ s w i); v_fe : forall s i, v (FE s i) = VE (de_ s w i) }.
Lemma Vw_ext w v v' : (forall l, v l = v' l) -> Vw w v -> Vw w v'.
Proof. intros H [A B C D F G K]. constructor; auto; intros; rewrite <- H; auto. Qed.

Notation app_ := (app_ loc val).
Lemma app_put l v a : app_ (put l) v a = match find (fun e => loc_eqb a (fst e)) l with Some e => snd e | None => v a end.
Proof. unfold ThreadsFacts.app_. induction l as [|[b x] l IH]; cbn; auto. destruct (loc_eqb a b); auto. Qed.
Ltac vfin V2 V3 V4 V5 V6 V7 :=
  eexists; split; [reflexivity|]; constructor; intros;
  repeat match goal with s : side |- _ => destruct s end; unfold ThreadsFacts.app_; cbn; rewrite ?V2, ?V3, ?V4, ?V5, ?V6, ?V7; cbn; unfold fset;
  repeat match goal with |- context [?a =? ?b] => destruct (Nat.eqb_spec a b); subst; cbn end; auto; congruence.
Lemma sim w v c p : Vw w v -> astep c v = Some p -> exists w', nexec1 c w = Ok w' /\ Vw w' (app_ p v).
Proof.
  intros [V1 V2 V3 V4 V5 V6 V7] HS. destruct w as [nm0 mm0 ne0 le0 re0 acc0 eng0 dm0 dl0 dr0 tmp0]; cbn in *. subst nm0.
  destruct c as [[|i|i [|]|i| |n|s i|s i|s i|s i|s i|s i|s i|rt i|i|i]|rt i nn|k]; cbn [astep] in HS; try discriminate; cbn [Noise.nexec1]; unfold rt_, re_, rs_, rn_ in HS; rewrite ?V2, ?V3, ?V4, ?V5, ?V6, ?V7 in HS; cbn [Disk.exec1 Disk.nm Disk.ne Disk.dm Disk.mm];
  unfold Disk.de_, Disk.le_ in *; cbn [Disk.le Disk.re Disk.dl Disk.dr] in *.
  all: try (destruct (i <? N) eqn:EI; [|discriminate]). all: try (destruct (i <? ne0) eqn:EI; [|discriminate]). all: try (destruct s).
  all: try (match type of HS with match ?o with Some _ => _ | None => _ end = _ => destruct o as [t|] eqn:ET; [|discriminate] end).
  all: try (injection HS as <-; vfin V2 V3 V4 V5 V6 V7).
  unfold Disk.getE, Disk.getM, Disk.putM, Disk.putE, Disk.de_, Disk.le_ in *. cbn [Disk.nm Disk.ne Disk.mm Disk.le Disk.re Disk.eng] in *.
    match type of HS with (if ?b then _ else _) = _ => destruct b eqn:EB; [|discriminate] end.
    repeat rewrite andb_true_iff in EB. destruct EB as ((((E1 & E2) & E3) & E4) & E5). 
    assert (E3' : (i <? N) = true) by (apply Nat.ltb_lt in E3; apply Nat.ltb_lt; lia).
    opt. rewrite ?EI, E2, E3, E3', E4. cbn [bind use]. destruct (solve3 _ _ _ _ _ _ _ _) as [[[a b] c] s']. injection HS as <-.
    repeat (progress (cbn [bind use Disk.set_mm Disk.nm Disk.mm Disk.ne]; rewrite ?E3', ?E3, ?E4)).
    destruct rt; cbn [Disk.ne Disk.nm]; rewrite E5; cbn [bind]; vfin V2 V3 V4 V5 V6 V7.
Qed.

(** ** The serial sweep on views *)
Notation arun := (arun ninstr loc val astep).
Definition guard (c : ninstr) (v : view) : Prop :=
  match c with
  | B (DumpM i true) => rt_ v (LM i) <> None
  | B (DumpE s i) => re_ v (LE s i) <> None
  | B (LoadM _) | B (LoadE _ _) | B (FreeE _ _) | B (RmE _ _) | B (NewEnvs _) | Upd3 _ _ _ | Start _ => True
  | _ => False
  end.
Lemma conv w v c w' : Vw w v -> nexec1 c w = Ok w' -> guard c v -> exists p, astep c v = Some p /\ Vw w' (app_ p v).
Proof.
  intros HV HX HG. assert (HS : astep c v <> None).
  { destruct HV as [V1 V2 V3 V4 V5 V6 V7]. destruct w as [nm0 mm0 ne0 le0 re0 acc0 eng0 dm0 dl0 dr0 tmp0]; cbn [Disk.nm Disk.mm Disk.ne Disk.eng Disk.dm] in *. subst nm0.
    destruct c as [[|i|i [|]|i| |n|s i|s i|s i|s i|s i|s i|s i|rt i|i|i]|rt i nn|k]; cbn [guard] in HG; try tauto; cbn [astep]; try discriminate; cbn [Noise.nexec1 Disk.exec1] in HX; unfold rt_, re_, rs_, rn_ in *; rewrite ?V2, ?V3, ?V4, ?V5, ?V6, ?V7 in *;
      unfold Disk.getE, Disk.getM, Disk.putM, Disk.putE, Disk.de_, Disk.le_ in *; cbn [Disk.le Disk.re Disk.dl Disk.dr Disk.nm Disk.ne Disk.mm Disk.dm Disk.eng] in *.
    - destruct (i <? N); [|discriminate]. destruct (dm0 i); discriminate.
    - destruct (i <? N); [|discriminate]. destruct (mm0 i); congruence.
    - destruct (i <? ne0); [|discriminate]. destruct s; [destruct (dl0 i)|destruct (dr0 i)]; discriminate.
    - destruct (i <? ne0); [|discriminate]. destruct s; [destruct (le0 i)|destruct (re0 i)]; congruence.
    - destruct (i <? ne0); discriminate.
    - destruct (i <? ne0); [|discriminate]. destruct (le0 i); [|discriminate]. cbn [use bind] in HX. destruct (N - (i + 2) <? ne0); [|discriminate]. destruct (re0 (N - (i + 2))); [|discriminate]. cbn [use bind] in HX.
      destruct (i <? N) eqn:EI; [|discriminate]. destruct (mm0 i); [|discriminate]. cbn [use bind] in HX. destruct (i + 1 <? N) eqn:EI1; [|discriminate]. destruct (mm0 (i + 1)); [|discriminate]. cbn [use bind] in HX.
      destruct (nn <? N) eqn:EN; [|discriminate]. destruct (mm0 nn); [|discriminate]. cbn [use bind] in HX. destruct eng0; [|discriminate]. cbn [use bind] in HX.
      destruct (solve3 _ _ _ _ _ _ _ _) as [[[a b] c] s']. repeat (progress (cbn [bind use Disk.set_mm Disk.nm Disk.mm Disk.ne andb] in HX |- * ; rewrite ?EI, ?EI1 in HX)).
      destruct rt; cbn [Disk.ne Disk.nm] in HX; [destruct (i + 1 <? ne0)|destruct (N - (i + 1) <? ne0)]; cbn [bind] in HX; discriminate. }
  destruct (astep c v) as [p|] eqn:EA; [|congruence]. destruct (sim w v c p HV EA) as (w2 & E2 & HV2). exists p. split; auto. congruence.
Qed.
Definition unguarded (c : ninstr) : Prop := forall v, guard c v.
Lemma arun_app' a b v : arun (a ++ b) v = match arun a v with Some v' => arun b v' | None => None end.
Proof. revert v. induction a as [|c a IH]; cbn; intros; auto. destruct (astep c v); auto. Qed.
Lemma nexec_app' : forall p q w, nexec (p ++ q) w = bind (nexec p w) (nexec q).
Proof. induction p as [|c p IH]; intros; auto. cbn [Noise.nexec app]. destruct (nexec1 c w); cbn [bind]; auto. Qed.
Lemma conv_list q : Forall unguarded q -> forall w v w', Vw w v -> nexec q w = Ok w' -> exists v', arun q v = Some v' /\ Vw w' v'.
Proof.
  induction 1 as [|c q HC _ IH]; cbn [Noise.nexec ThreadsFacts.arun]; intros w v w' HV HX.
  - injection HX as <-. eauto.
  - destruct (nexec1 c w) as [w1| |] eqn:E1; try discriminate. destruct (conv w v c w1 HV E1 (HC v)) as (p & EP & HV1). rewrite EP. eapply IH; eauto.
Qed.
(** an update followed by the dumps of what it wrote *)
Lemma upd_dump_conv (rt : bool) (l nn j : nat) (s : side) (k fl fr : nat) (w : world) (v : view) (w' : world) :
  (j = l \/ j = l + 1) -> (s, k) = (if rt then (L, l + 1) else (R, N - (l + 1))) -> ~ (s = L /\ k = fl) -> ~ (s = R /\ k = fr) ->
  Vw w v -> nexec (Upd3 rt l nn :: map B [FreeE L fl; FreeE R fr; DumpM j true; DumpE s k]) w = Ok w' ->
  exists v', arun (Upd3 rt l nn :: map B [FreeE L fl; FreeE R fr; DumpM j true; DumpE s k]) v = Some v' /\ Vw w' v'.
Proof.
  intros Hj Hk HL HR HV HX. cbn [Noise.nexec map] in HX.
  destruct (nexec1 (Upd3 rt l nn) w) as [w1| |] eqn:E1; try discriminate HX. destruct (conv _ _ _ _ HV E1 I) as (p1 & A1 & V1). cbn [bind] in HX.
  destruct (nexec1 (B (FreeE L fl)) w1) as [w2| |] eqn:E2; try discriminate HX. destruct (conv _ _ _ _ V1 E2 I) as (p2 & A2 & V2). cbn [bind] in HX.
  destruct (nexec1 (B (FreeE R fr)) w2) as [w3| |] eqn:E3; try discriminate HX. destruct (conv _ _ _ _ V2 E3 I) as (p3 & A3 & V3). cbn [bind] in HX.
  assert (W : forall l', wr (B (FreeE L fl)) l' \/ wr (B (FreeE R fr)) l' \/ wr (B (DumpM j true)) l' \/ True) by auto. clear W.
  assert (P1 : rt_ (app_ p1 v) (LM j) <> None /\ re_ (app_ p1 v) (LE s k) <> None).
  { cbn [astep] in A1. opt. destruct (solve3 _ _ _ _ _ _ _ _) as [[[a b] c] s'].
    assert (EP : forall x, p1 x = put [(EN, VS (Some s')); (if rt then (LE L (l + 1), VE (Some (grow L l e a))) else (LE R (N - (l + 1)), VE (Some (grow R (l + 1) e0 b)))); (LM (l + 1), VT (Some b)); (LM l, VT (Some a)); (LM nn, VT (Some c))] x).
    { intros x. apply (f_equal (fun o => match o with Some q => q x | None => None end)) in A1. auto. }
    unfold rt_, re_, ThreadsFacts.app_. rewrite !EP. destruct rt; injection Hk as -> ->; cbn [put fst snd loc_eqb]; rewrite ?Nat.eqb_refl; (split; [|discriminate]); destruct Hj as [->| ->]; rewrite ?Nat.eqb_refl; try discriminate; destruct (l =? l + 1); discriminate. }
  assert (P3 : rt_ (app_ p3 (app_ p2 (app_ p1 v))) (LM j) <> None /\ re_ (app_ p3 (app_ p2 (app_ p1 v))) (LE s k) <> None).
  { assert (Q2 : forall x, p2 x <> None -> x = LE L fl) by (intros x Hx; exact (astep_wr _ _ _ _ A2 Hx)). assert (Q3 : forall x, p3 x <> None -> x = LE R fr) by (intros x Hx; exact (astep_wr _ _ _ _ A3 Hx)).
    destruct P1 as (P1 & P1'). unfold rt_, re_, ThreadsFacts.app_ in *.
    destruct (p3 (LM j)) eqn:X1; [exfalso; specialize (Q3 (LM j)); rewrite X1 in Q3; discriminate Q3; discriminate|]. destruct (p2 (LM j)) eqn:X2; [exfalso; specialize (Q2 (LM j)); rewrite X2 in Q2; discriminate Q2; discriminate|].
    destruct (p3 (LE s k)) eqn:X3; [exfalso; specialize (Q3 (LE s k)); rewrite X3 in Q3; assert (Y : LE s k = LE R fr) by (apply Q3; discriminate); injection Y as -> ->; apply HR; auto|].
    destruct (p2 (LE s k)) eqn:X4; [exfalso; specialize (Q2 (LE s k)); rewrite X4 in Q2; assert (Y : LE s k = LE L fl) by (apply Q2; discriminate); injection Y as -> ->; apply HL; auto|]. auto. }
  destruct (nexec1 (B (DumpM j true)) w3) as [w4| |] eqn:E4; try discriminate HX. destruct (conv _ _ _ _ V3 E4 (proj1 P3)) as (p4 & A4 & V4). cbn [bind] in HX.
  assert (P4 : re_ (app_ p4 (app_ p3 (app_ p2 (app_ p1 v)))) (LE s k) <> None).
  { destruct P3 as (_ & P3). unfold re_, ThreadsFacts.app_ in *. destruct (p4 (LE s k)) eqn:X; auto. exfalso. assert (Y : wr (B (DumpM j true)) (LE s k)) by (eapply astep_wr; [exact A4|congruence]). destruct Y; discriminate. }
  destruct (nexec1 (B (DumpE s k)) w4) as [w5| |] eqn:E5; try discriminate HX. destruct (conv _ _ _ _ V4 E5 P4) as (p5 & A5 & V5). cbn [bind] in HX. injection HX as <-.
  exists (app_ p5 (app_ p4 (app_ p3 (app_ p2 (app_ p1 v))))). split; auto. cbn [ThreadsFacts.arun map]. rewrite A1, A2, A3, A4, A5. reflexivity.
Qed.
Definition converts (q : list ninstr) : Prop := forall w v w', Vw w v -> nexec q w = Ok w' -> exists v', arun q v = Some v' /\ Vw w' v'.
Lemma converts_app a b : converts a -> converts b -> converts (a ++ b).
Proof.
  intros HA HB w v w' HV HX. rewrite nexec_app' in HX. destruct (nexec a w) as [w1| |] eqn:E1; try discriminate.
  destruct (HA _ _ _ HV E1) as (v1 & A1 & V1). destruct (HB _ _ _ V1 HX) as (v2 & A2 & V2). exists v2. rewrite arun_app', A1. auto.
Qed.
Lemma converts_flat {A} (f : A -> list ninstr) l : (forall a, In a l -> converts (f a)) -> converts (flat_map f l).
Proof. induction l as [|a l IH]; intros H; cbn [flat_map]. - intros w v w' HV HX. cbn in HX. injection HX as <-. exists v. auto. - apply converts_app; [apply H; left; auto|apply IH; intros; apply H; right; auto]. Qed.
Lemma sweep_converts n lb rb k : lb + 2 <= rb -> rb < N -> converts (sweep3e n N lb rb k).
Proof.
  intros H1 H2. unfold sweep3e. apply converts_app; [intros w v w'; apply conv_list; repeat constructor|]. apply converts_app; apply converts_flat; intros i Hi.
  - apply in_seq in Hi. apply converts_app.
    + intros w v w'. apply conv_list. unfold load_right3. destruct (i =? lb); repeat constructor.
    + intros w v w' HV HX. apply (upd_dump_conv true i (i + 2) i L (i + 1) i (N - (i + 2)) w v w'); auto; try (intros (Y & Z); discriminate || lia).
  - apply in_rev, in_seq in Hi. apply converts_app.
    + intros w v w'. apply conv_list. unfold load_left3. destruct (i =? rb); repeat constructor.
    + intros w v w' HV HX. apply (upd_dump_conv false (i - 1) (i - 2) i R (N - i) (i + 1 - 2) (N - (i + 1)) w v w'); auto; try (intros (Y & Z); discriminate || lia).
      * right. lia.
      * f_equal. lia.
Qed.
(** ** Independence of what runs at the same time *)
Notation indeps := (indeps ninstr loc rd wr). Notation runs_to := (runs_to ninstr loc val astep). Notation safe := (safe ninstr loc rd wr).
Ltac locs := repeat match goal with
  | H : _ /\ _ |- _ => destruct H
  | H : _ \/ _ |- _ => destruct H
  | H : LM _ = LM _ |- _ => injection H; clear H; intros
  | H : FM _ = FM _ |- _ => injection H; clear H; intros
  | H : LE _ _ = LE _ _ |- _ => injection H; clear H; intros
  | H : FE _ _ = FE _ _ |- _ => injection H; clear H; intros
  end; try discriminate; try lia.
Ltac indep_tac := let c := fresh in let d := fresh in let Hc := fresh in let Hd := fresh in
  intros c d Hc Hd; cbn in Hc, Hd; repeat (destruct Hc as [<-|Hc]); try contradiction; repeat (destruct Hd as [<-|Hd]); try contradiction;
  intros x; cbn [rd wr]; (split; [intros HW; split; intros HR|intros HW HR]); locs; subst x; locs.
Variables lb rb : nat.
Hypothesis Hlr : lb + 2 <= rb.
Hypothesis HrN : rb < N.
Notation LR i := (map B (load_right3 N lb i)). Notation DR i := (map B (dump_right N i)). Notation UR i := [Upd3 true i (i + 2)].
Notation LL i := (map B (load_left3 N rb i)). Notation DL i := (map B (dump_left N i)). Notation UL i := [Upd3 false (i - 1) (i - 2)].
Lemma LR_eq i : lb <= i -> LR (i + 1) = map B [LoadM (i + 3); LoadE R (N - (i + 3)); RmE R (N - (i + 3))].
Proof. intros H. unfold load_right3. destruct (Nat.eqb_spec (i + 1) lb); [lia|]. replace (i + 1 + 2) with (i + 3) by lia. reflexivity. Qed.
Lemma LL_eq i : i <= rb -> 3 <= i -> LL (i - 1) = map B [LoadM (i - 3); LoadE L (i - 2); RmE L (i - 2)].
Proof. intros H HI. unfold load_left3. destruct (Nat.eqb_spec (i - 1) rb); [lia|]. replace (i - 1 - 2) with (i - 3) by lia. replace (i - 1 + 1 - 2) with (i - 2) by lia. reflexivity. Qed.
Lemma UR_LR i : lb <= i -> i < rb - 2 -> indeps (UR i) (LR (i + 1)).
Proof. intros H1 H2. rewrite LR_eq by auto. indep_tac. Qed.
Lemma UR_DR i : lb < i -> i <= rb - 2 -> indeps (UR i) (DR (i - 1)).
Proof. intros H1 H2. indep_tac. Qed.
Lemma LR_DR i : lb < i -> i < rb - 2 -> indeps (LR (i + 1)) (DR (i - 1)).
Proof. intros H1 H2. rewrite LR_eq by lia. indep_tac. Qed.
Lemma DR_LR i : lb <= i -> i < rb - 2 -> indeps (DR i) (LR (i + 1)).
Proof. intros H1 H2. rewrite LR_eq by lia. indep_tac. Qed.
Lemma UL_LL i : i <= rb -> lb + 2 < i -> indeps (UL i) (LL (i - 1)).
Proof. intros H1 H2. rewrite LL_eq by lia. indep_tac. Qed.
Lemma UL_DL i : i < rb -> lb + 2 <= i -> indeps (UL i) (DL (i + 1)).
Proof. intros H1 H2. indep_tac. Qed.
Lemma LL_DL i : i < rb -> lb + 2 < i -> indeps (LL (i - 1)) (DL (i + 1)).
Proof. intros H1 H2. rewrite LL_eq by lia. indep_tac. Qed.
Lemma DL_LL i : i <= rb -> lb + 2 < i -> indeps (DL i) (LL (i - 1)).
Proof. intros H1 H2. rewrite LL_eq by lia. indep_tac. Qed.

(** ** Nothing that runs at the same time conflicts *)
Notation pool := (list (nat * list ninstr)).
Lemma indeps_nil q : indeps q [].
Proof. intros c d _ []. Qed.
Lemma pend1 (p : nat) q : pending ninstr [(p, q)] = q.
Proof. cbn. apply app_nil_r. Qed.
Lemma pend2 (p p' : nat) q q' : pending ninstr [(p, q); (p', q')] = q ++ q'.
Proof. cbn. rewrite app_nil_r. auto. Qed.
Lemma indeps_app_r a b c : indeps a b -> indeps a c -> indeps a (b ++ c).
Proof. intros H1 H2 x y Hx Hy. apply in_app_or in Hy as [Hy|Hy]; auto. Qed.
Lemma right_safe m : safe [(1, DR (rb - 2))] m -> forall k i, i + k = rb - 1 -> lb <= i ->
  safe (if lb <? i then [(1, DR (i - 1))] else []) (flat_map (right_iter N lb rb) (seq i k) ++ m).
Proof.
  intros HM. induction k as [|k IH]; intros i E1 E2.
  - cbn [seq flat_map app]. destruct (Nat.ltb_spec lb i); [|lia]. replace (i - 1) with (rb - 2) by lia. exact HM.
  - cbn [seq flat_map]. rewrite <- app_assoc. specialize (IH (S i) ltac:(lia) ltac:(lia)). destruct (Nat.ltb_spec lb (S i)); [|lia]. replace (S i - 1) with i in IH by lia.
    unfold right_iter at 1. destruct (Nat.ltb_spec lb i) as [HI|HI]; destruct (Nat.ltb_spec i (rb - 2)) as [HJ|HJ]; cbn [app ThreadsFacts.safe map fst]; rewrite ?pend1, ?pend2.
    + split; [cbn; lia|]. split; [apply LR_DR; lia|]. split; [apply indeps_app_r; [apply UR_DR|apply UR_LR]; lia|]. split; [cbn; auto|].
      cbn [drop filter fst Nat.eqb negb app map]. split; [cbn; lia|]. rewrite ?pend1. split; [apply DR_LR; lia|]. split; [cbn; auto|]. cbn [drop filter fst Nat.eqb negb]. exact IH.
    + split; [apply UR_DR; lia|]. split; [cbn; auto|]. cbn [drop filter fst Nat.eqb negb app map]. split; [cbn; lia|]. split; [apply indeps_nil|]. exact IH.
    + split; [cbn; lia|]. split; [apply indeps_nil|]. split; [apply UR_LR; lia|]. split; [cbn; lia|]. split; [apply DR_LR; lia|]. split; [cbn; auto|]. cbn [drop filter fst Nat.eqb negb]. exact IH.
    + split; [apply indeps_nil|]. split; [cbn; lia|]. split; [apply indeps_nil|]. exact IH.
Qed.
Lemma left_safe m : safe [(1, DL (lb + 2))] m -> forall k i, i = lb + 1 + k -> i <= rb ->
  safe (if i <? rb then [(1, DL (i + 1))] else []) (flat_map (left_iter N lb rb) (rev (seq (lb + 2) k)) ++ m).
Proof.
  intros HM. induction k as [|k IH]; intros i E1 E2.
  - cbn [seq rev flat_map app]. destruct (Nat.ltb_spec i rb); [|lia]. replace (i + 1) with (lb + 2) by lia. exact HM.
  - rewrite seq_S, rev_app_distr. cbn [rev app flat_map]. rewrite <- app_assoc. replace (lb + 2 + k) with i by lia. specialize (IH (i - 1) ltac:(lia) ltac:(lia)). destruct (Nat.ltb_spec (i - 1) rb); [|lia]. replace (i - 1 + 1) with i in IH by lia.
    unfold left_iter at 1. destruct (Nat.ltb_spec i rb) as [HI|HI]; destruct (Nat.ltb_spec (lb + 2) i) as [HJ|HJ]; cbn [app ThreadsFacts.safe map fst]; rewrite ?pend1, ?pend2.
    + split; [cbn; lia|]. split; [apply LL_DL; lia|]. split; [apply indeps_app_r; [apply UL_DL|apply UL_LL]; lia|]. split; [cbn; auto|].
      cbn [drop filter fst Nat.eqb negb app map]. split; [cbn; lia|]. rewrite ?pend1. split; [apply DL_LL; lia|]. split; [cbn; auto|]. cbn [drop filter fst Nat.eqb negb]. exact IH.
    + split; [apply UL_DL; lia|]. split; [cbn; auto|]. cbn [drop filter fst Nat.eqb negb app map]. split; [cbn; lia|]. split; [apply indeps_nil|]. exact IH.
    + split; [cbn; lia|]. split; [apply indeps_nil|]. split; [apply UL_LL; lia|]. split; [cbn; lia|]. split; [apply DL_LL; lia|]. split; [cbn; auto|]. cbn [drop filter fst Nat.eqb negb]. exact IH.
    + split; [apply indeps_nil|]. split; [cbn; lia|]. split; [apply indeps_nil|]. exact IH.
Qed.
Lemma runs_safe q m : safe [] m -> safe [] (map (fun c => Run (B c)) q ++ m).
Proof. intros H. induction q as [|c q IH]; cbn [map app ThreadsFacts.safe]; auto. split; [apply indeps_nil|auto]. Qed.
Lemma sweep_safe k m : safe [] m -> safe [] (thr_sweep N lb rb k ++ m).
Proof.
  intros HM. unfold thr_sweep. rewrite <- !app_assoc. cbn [app ThreadsFacts.safe]. split; [apply indeps_nil|]. split; [apply indeps_nil|].
  apply runs_safe. pose proof (right_safe ([Join 1] ++ map (fun c => Run (B c)) (load_left3 N rb rb) ++ flat_map (left_iter N lb rb) (rev (seq (lb + 2) (rb - (lb + 1)))) ++ [Join 1] ++ m)) as H.
  specialize (fun X => H X (rb - 1 - lb) lb ltac:(lia) (le_n _)). rewrite Nat.ltb_irrefl in H. apply H. cbn [app ThreadsFacts.safe map fst]. split; [cbn; auto|]. cbn [drop filter fst Nat.eqb negb].
  apply runs_safe. pose proof (left_safe (Join 1 :: m)) as HL. specialize (fun X => HL X (rb - (lb + 1)) rb ltac:(lia) (le_n _)). rewrite Nat.ltb_irrefl in HL. apply HL. cbn [app ThreadsFacts.safe map fst]. split; [cbn; auto|]. exact HM.
Qed.
(** ** Running every thread at its fork: the serial order up to independent blocks *)
Notation eager := (eager ninstr).
Lemma eager_app a b : eager (a ++ b) = eager a ++ eager b.
Proof. induction a as [|[c|p q|p] a IH]; cbn; auto; rewrite IH; auto. rewrite app_assoc. auto. Qed.
Lemma eager_runs q : eager (map (fun c => Run (B c)) q) = map B q.
Proof. induction q; cbn; congruence. Qed.
Notation blocks_swap := (blocks_swap ninstr loc val astep rd wr astep_rd astep_wr). Notation under := (under ninstr loc val astep).
Lemma right_eager r : forall k i, i + S k = rb - 1 -> lb <= i -> forall v vf,
  runs_to (flat_map (step_right3 N lb) (seq i (S k)) ++ r) v vf -> runs_to (LR i ++ eager (flat_map (right_iter N lb rb) (seq i (S k))) ++ r) v vf.
Proof.
  induction k as [|k IH]; intros i E1 E2 v vf H.
  - cbn [seq flat_map] in *. rewrite app_nil_r in *. unfold right_iter. destruct (Nat.ltb_spec i (rb - 2)); [lia|]. rewrite !eager_app. unfold step_right3 in H. rewrite <- !app_assoc in H.
    destruct (lb <? i); cbn [ThreadsFacts.eager app] in *; rewrite app_nil_r; exact H.
  - change (seq i (S (S k))) with (i :: seq (S i) (S k)) in H |- *. cbn [flat_map] in H |- *. unfold step_right3 at 1 in H. rewrite eager_app. unfold right_iter at 1. destruct (Nat.ltb_spec i (rb - 2)); [|lia].
    rewrite !eager_app. rewrite <- !app_assoc in H |- *. revert v H. apply (under (LR i)). intros v H.
    assert (H' : runs_to ((UR i ++ DR i) ++ LR (S i) ++ eager (flat_map (right_iter N lb rb) (seq (S i) (S k))) ++ r) v vf).
    { rewrite <- app_assoc. revert v H. apply (under (UR i)). apply (under (DR i)). intros v H. apply IH; auto; lia. }
    apply blocks_swap in H'.
    + replace (S i) with (i + 1) in * by lia. destruct (lb <? i); cbn [ThreadsFacts.eager app] in *; rewrite ?app_nil_r in *; rewrite <- ?app_assoc in *; exact H'.
    + replace (S i) with (i + 1) by lia. intros c d Hc Hd. apply in_app_or in Hc as [Hc|Hc]; [apply (UR_LR i)|apply (DR_LR i)]; auto; lia.
Qed.
Lemma left_eager r : forall k i, i = lb + 1 + S k -> i <= rb -> forall v vf,
  runs_to (flat_map (step_left3 N rb) (rev (seq (lb + 2) (S k))) ++ r) v vf -> runs_to (LL i ++ eager (flat_map (left_iter N lb rb) (rev (seq (lb + 2) (S k)))) ++ r) v vf.
Proof.
  induction k as [|k IH]; intros i E1 E2 v vf H.
  - cbn [seq rev flat_map app] in *. rewrite app_nil_r in *. replace (lb + 2) with i in * by lia. unfold left_iter. replace (lb + 2 <? i) with false by (symmetry; apply Nat.ltb_ge; lia). rewrite !eager_app. unfold step_left3 in H. rewrite <- !app_assoc in H.
    destruct (i <? rb); cbn [ThreadsFacts.eager app] in *; rewrite app_nil_r; exact H.
  - rewrite seq_S, rev_app_distr in H |- *. cbn [rev app] in H |- *. replace (lb + 2 + S k) with i in * by lia. cbn [flat_map] in H |- *. unfold step_left3 at 1 in H. rewrite eager_app. unfold left_iter at 1. destruct (Nat.ltb_spec (lb + 2) i); [|lia].
    rewrite !eager_app. rewrite <- !app_assoc in H |- *. revert v H. apply (under (LL i)). intros v H.
    assert (H' : runs_to ((UL i ++ DL i) ++ LL (i - 1) ++ eager (flat_map (left_iter N lb rb) (rev (seq (lb + 2) (S k)))) ++ r) v vf).
    { rewrite <- app_assoc. revert v H. apply (under (UL i)). apply (under (DL i)). intros v H. apply IH; auto; lia. }
    apply blocks_swap in H'.
    + destruct (i <? rb); cbn [ThreadsFacts.eager app] in *; rewrite ?app_nil_r in *; rewrite <- ?app_assoc in *; exact H'.
    + intros c d Hc Hd. apply in_app_or in Hc as [Hc|Hc]; [apply (UL_LL i)|apply (DL_LL i)]; auto; lia.
Qed.
Lemma sweep_eager k r v vf : runs_to (sweep3e (N - 1) N lb rb k ++ r) v vf -> runs_to (eager (thr_sweep N lb rb k) ++ r) v vf.
Proof.
  intros H. unfold sweep3e in H. unfold thr_sweep. rewrite !eager_app, !eager_runs. rewrite <- !app_assoc in *. revert v H. apply (under [Start k; B (NewEnvs (N - 1))]). intros v H.
  replace (rb - 1 - lb) with (S (rb - 2 - lb)) in * by lia. apply right_eager in H; [|lia|lia].
  revert v H. apply (under (LR lb)). apply under. intros v H. cbn [ThreadsFacts.eager app]. replace (rb - (lb + 1)) with (S (rb - lb - 2)) in * by lia. apply left_eager; auto; lia.
Qed.
Notation conf := (conf ninstr world). Notation mkC := (mkC ninstr world). Notation steps := (steps ninstr world nexec1). Notation step := (step ninstr world nexec1). Notation bad := (bad ninstr world nexec1).
Definition thr_prog (k m : nat) : list (stmt ninstr) := flat_map (thr_sweep N lb rb) (seq k m).
Definition ser_prog (k m : nat) : list ninstr := flat_map (sweep3e (N - 1) N lb rb) (seq k m).
Lemma prog_safe m : forall k, safe [] (thr_prog k m).
Proof. induction m as [|m IH]; intros k; cbn; auto. apply sweep_safe. apply IH. Qed.
Lemma prog_eager m : forall k v vf, runs_to (ser_prog k m) v vf -> runs_to (eager (thr_prog k m)) v vf.
Proof.
  unfold ser_prog, thr_prog. induction m as [|m IH]; intros k v vf H; auto. cbn [seq flat_map] in *. rewrite eager_app. apply sweep_eager. revert v H. apply under. intros. apply IH. auto.
Qed.
Definition view_of (w : world) : view := fun l => match l with LM i => VT (mm w i) | LE s i => VE (le_ s w i) | FM i => VT (dm w i) | FE s i => VE (de_ s w i) | NE => VN (ne w) | EN => VS (eng w) end.
Lemma view_of_ok w : nm w = N -> Vw w (view_of w).
Proof. intros H. constructor; auto. Qed.
Lemma start_inv k m w wf : nm w = N -> nexec (ser_prog k m) w = Ok wf ->
  exists vf, Vw wf vf /\ inv ninstr world loc val astep rd wr Vw vf (mkC (thr_prog k m) [] w).
Proof.
  intros HN HX. assert (HC : converts (ser_prog k m)) by (apply converts_flat; intros; apply sweep_converts; auto).
  destruct (HC w (view_of w) wf (view_of_ok w HN) HX) as (vf & A & V). exists vf. split; auto. constructor; cbn [c_ths c_main c_w].
  - constructor.
  - apply prog_safe.
  - exact I.
  - exists (view_of w). split; [apply view_of_ok; auto|]. cbn [pending flat_map app]. apply prog_eager. exists vf. split; auto. intros l. auto.
Qed.
Lemma reach_inv k m w wf cf : nm w = N -> nexec (ser_prog k m) w = Ok wf -> steps (mkC (thr_prog k m) [] w) cf -> exists vf, inv ninstr world loc val astep rd wr Vw vf cf.
Proof.
  intros HN HX HS. destruct (start_inv k m w wf HN HX) as (vf & V & HI). exists vf.
  exact (steps_inv ninstr world nexec1 loc val astep rd wr astep_rd astep_wr Vw sim vf _ _ HI HS).
Qed.
(** what two worlds have in common, slot by slot and file by file *)
Record same (a b : world) : Prop := {
  s_nm : nm a = nm b; s_ne : ne a = ne b; s_eng : eng a = eng b; s_mm : forall i, mm a i = mm b i; s_dm : forall i, dm a i = dm b i;
  s_le : forall s i, le_ s a i = le_ s b i; s_de : forall s i, de_ s a i = de_ s b i }.
Lemma Vw_same a b v v' : Vw a v -> Vw b v' -> (forall l, v l = v' l) -> same a b.
Proof.
  intros [A1 A2 A3 A4 A5 A6 A7] [B1 B2 B3 B4 B5 B6 B7] H. constructor.
  - congruence.
  - specialize (H NE). rewrite A2, B2 in H. injection H as H. exact H.
  - specialize (H EN). rewrite A3, B3 in H. injection H as H. exact H.
  - intros i. specialize (H (LM i)). rewrite A4, B4 in H. injection H as H. exact H.
  - intros i. specialize (H (FM i)). rewrite A5, B5 in H. injection H as H. exact H.
  - intros s i. specialize (H (LE s i)). rewrite A6, B6 in H. injection H as H. exact H.
  - intros s i. specialize (H (FE s i)). rewrite A7, B7 in H. injection H as H. exact H.
Qed.
Theorem thr_ok k m w wf cf : nm w = N -> nexec (ser_prog k m) w = Ok wf -> steps (mkC (thr_prog k m) [] w) cf ->
  ~ bad cf /\ ((c_main _ _ cf = [] /\ c_ths _ _ cf = [] /\ same (c_w _ _ cf) wf) \/ exists cf', step cf cf').
Proof.
  intros HN HX HS. destruct (start_inv k m w wf HN HX) as (vf & V & HI).
  pose proof (steps_inv ninstr world nexec1 loc val astep rd wr astep_rd astep_wr Vw sim vf _ _ HI HS) as HI2.
  split; [apply (inv_not_bad ninstr world nexec1 loc val astep rd wr astep_rd astep_wr Vw sim vf); auto|].
  destruct (inv_progress ninstr world nexec1 loc val astep rd wr astep_rd astep_wr Vw sim vf _ HI2) as [(E1 & E2)|H]; auto. left. split; auto. split; auto.
  destruct cf as [mm_ ths w2]. cbn in E1, E2. subst. destruct (inv_done ninstr world loc val astep rd wr Vw vf [] w2 HI2 eq_refl) as (v & V2 & HE).
  apply (Vw_same _ _ v vf); auto. 
Qed.
End Sweep.
