(** Specification of overlap search, linear combinations, delinearisation and the two compression
    functions of CoefOp.v, for arbitrary well-formed matrices. *)
From Coq Require Import List Arith Lia Bool Permutation.
From Verif Require Import Base SparMat SparMatFacts CoefOp CoefOpAlg CoefOpFacts.
Import ListNotations.

Lemma nth_error_map_seq : forall A (f : nat -> A) n i, i < n -> nth_error (map f (seq 0 n)) i = Some (f i).
Proof.
  intros A f n i Hi. rewrite nth_error_map.
  rewrite (nth_error_nth' (seq 0 n) 0) by (rewrite seq_length; lia).
  rewrite seq_nth by lia. reflexivity.
Qed.
Lemma vget_map_seq : forall A (f : nat -> A) n i, i < n -> vget (map f (seq 0 n)) i = Ok (f i).
Proof. intros. unfold vget. rewrite nth_error_map_seq by auto. reflexivity. Qed.

Lemma get_row_sm : forall dbg m r, wfo m -> r < rows m -> get_row kNullOp dbg m r = Ok (rowl m r).
Proof. intros. erewrite get_row_spec; eauto. Qed.
Lemma get_col_sm : forall dbg m c, wfo m -> c < cols m -> get_col kNullOp dbg m c = Ok (coll m c).
Proof. intros. erewrite get_col_spec; eauto. Qed.

Lemma opvec_eq_map : forall (f g : nat -> oprepr) n s,
  opvec_eq (map f (seq s n)) (map g (seq s n)) = true <-> forall i, s <= i < s + n -> op_eq (f i) (g i) = true.
Proof.
  intros f g. induction n; intros s; simpl.
  - split; auto. intros; lia.
  - rewrite andb_true_iff, IHn. split.
    + intros [H1 H2] i Hi. destruct (Nat.eq_dec i s); subst; auto. apply H2. lia.
    + intros H. split; [apply H; lia|]. intros. apply H. lia.
Qed.

(** *** Overlap: [c] is a coefficient with which line [b] can enter a combination giving line [t]. *)
Definition ovrel (n : nat) (t b : nat -> oprepr) (c : coef) : Prop :=
  (c = kId \/ exists x, x < n /\ b x <> []) /\
  forall x, x < n -> b x <> [] ->
    (op_eq (t x) (b x) = true /\ c = kId) \/
    (op_eq (snd (separate (t x))) (b x) = true /\ coef_eq (fst (separate (t x))) c = true).

Definition ovinv (k : nat) (t b : nat -> oprepr) (st : option coef * list coef) : Prop :=
  match st with
  | (Some c, _) => c = kNull
  | (None, poss) =>
      (poss <> [] -> exists x, x < k /\ b x <> []) /\
      (poss = [] -> forall x, x < k -> b x = []) /\
      forall x, x < k -> b x <> [] ->
       (op_eq (t x) (b x) = true /\ coef_eq kId (hd kNull poss) = true) \/
       (op_eq (snd (separate (t x))) (b x) = true /\ coef_eq (fst (separate (t x))) (hd kNull poss) = true)
  end.

Lemma hd_app_ne : forall A (d : A) l x, l <> [] -> hd d (l ++ [x]) = hd d l.
Proof. intros A d [|a l] x H; [congruence|reflexivity]. Qed.

Lemma ov_step_inv : forall k (t b : nat -> oprepr) st,
  ovinv k t b st ->
  exists st', ov_step (Ok (op_isnull (b k))) (Ok (t k)) (Ok (b k)) st = Ok st' /\ ovinv (S k) t b st'.
Proof.
  intros k t b [[c|] poss] H; simpl.
  - eexists; split; [reflexivity|]. exact H.
  - destruct H as [H1 [H0 H2]]. destruct (op_isnull (b k)) eqn:En.
    + apply op_isnull_spec in En. eexists; split; [reflexivity|]. split; [|split].
      * intros Hp. destruct (H1 Hp) as [x [Hx Hb]]. exists x. split; auto.
      * intros Hp x Hx. destruct (Nat.eq_dec x k); [subst; auto|]. apply H0; auto. lia.
      * intros x Hx Hb. destruct (Nat.eq_dec x k); [subst; congruence|]. apply H2; auto. lia.
    + apply op_isnull_false in En.
      set (nxt := if op_eq (t k) (b k) then Some (poss ++ [kId])
        else if op_eq (snd (separate (t k))) (b k) then Some (poss ++ [fst (separate (t k))]) else None).
      assert (Hn : match nxt with None => True | Some poss' => exists c, poss' = poss ++ [c] /\
         ((op_eq (t k) (b k) = true /\ c = kId) \/
          (op_eq (snd (separate (t k))) (b k) = true /\ c = fst (separate (t k)))) end).
      { unfold nxt. destruct (op_eq (t k) (b k)) eqn:E1; eauto.
        destruct (op_eq (snd (separate (t k))) (b k)) eqn:E2; eauto. }
      destruct nxt as [poss'|]; [|eexists; split; reflexivity].
      destruct Hn as [c [-> Hc]]. rewrite app_length. cbn [length].
      replace (last (poss ++ [c]) kNull) with c by (symmetry; apply last_last).
      destruct ((1 <? length poss + 1) && negb (coef_eq c (hd kNull (poss ++ [c])))) eqn:Et.
      * eexists; split; reflexivity.
      * assert (Hch : coef_eq c (hd kNull (poss ++ [c])) = true).
        { destruct poss as [|p ps]; [simpl; apply coef_eq_refl|]. cbn [length app hd] in *.
          replace (1 <? S (length ps) + 1) with true in Et by (symmetry; apply Nat.ltb_lt; lia).
          simpl in Et. apply negb_false_iff in Et. auto. }
        eexists; split; [reflexivity|]. split; [|split].
        -- intros _. exists k. auto.
        -- intros Hp. destruct poss; discriminate.
        -- intros x Hx Hb. destruct (Nat.eq_dec x k).
           ++ subst x. destruct Hc as [[Hc1 ->]|[Hc1 ->]]; auto.
           ++ destruct (list_eq_dec (list_eq_dec Nat.eq_dec) poss []) as [->|Hp].
              ** exfalso. apply Hb. apply H0; auto. lia.
              ** rewrite hd_app_ne by auto. apply H2; auto. lia.
Qed.

Lemma ov_loop : forall n (t b : nat -> oprepr) (nl : nat -> res bool) (rt rb : nat -> res oprepr),
  (forall k, k < n -> nl k = Ok (op_isnull (b k)) /\ rt k = Ok (t k) /\ rb k = Ok (b k)) ->
  exists st, for_loop 0 n (fun k => ov_step (nl k) (rt k) (rb k)) (None, []) = Ok st /\
    (ov_result st = kNull \/ ovrel n t b (ov_result st)).
Proof.
  intros n t b nl rt rb H.
  destruct (for_loop_inv _ (fun k st => ovinv k t b st) (fun k => ov_step (nl k) (rt k) (rb k)) n 0 (None, []))
    as [st [H1 H2]].
  - split; [congruence|]. split; intros; lia.
  - intros k st Hk Hs. destruct (H k) as [-> [-> ->]]; [lia|]. apply ov_step_inv; auto.
  - exists st. split; auto. cbn [Nat.add] in H2. destruct st as [[c|] poss]; cbn [ov_result ovinv] in *; auto.
    destruct poss as [|c ps]; auto. right. destruct H2 as [G1 [_ G2]]. split.
    + right. apply G1. discriminate.
    + intros x Hx Hb. destruct (G2 x Hx Hb) as [[G3 G4]|[G3 G4]]; auto.
      left. split; auto. cbn [hd] in G4. rewrite coef_eq_sym in G4. apply coef_eq_id in G4. auto.
Qed.

Lemma col_overlap_spec : forall m (t : nat -> oprepr) y, wfo m -> y < cols m ->
  exists c, col_overlap m (map t (seq 0 (rows m))) y = Ok c /\
    (c = [] \/ ovrel (rows m) t (fun x => sm m x y) c).
Proof.
  intros m t y W Hy. unfold col_overlap.
  destruct (ov_loop (rows m) t (fun x => sm m x y)
    (fun x => is_null m x y) (fun x => vget (map t (seq 0 (rows m))) x) (fun x => oget_ m x y)) as [st [H1 H2]].
  - intros k Hk. split; [apply is_null_sm; auto|]. split; [apply vget_map_seq; auto|]. apply oget_sm; auto.
  - rewrite H1. simpl. eauto.
Qed.

Lemma row_overlap_spec : forall m (t : nat -> oprepr) x, wfo m -> x < rows m ->
  exists c, row_overlap m (map t (seq 0 (cols m))) x = Ok c /\
    (c = [] \/ ovrel (cols m) t (fun y => sm m x y) c).
Proof.
  intros m t x W Hx. unfold row_overlap.
  destruct (ov_loop (cols m) t (fun y => sm m x y)
    (fun y => is_null m x y) (fun y => vget (map t (seq 0 (cols m))) y) (fun y => oget_ m x y)) as [st [H1 H2]].
  - intros k Hk. split; [apply is_null_sm; auto|]. split; [apply vget_map_seq; auto|]. apply oget_sm; auto.
  - rewrite H1. simpl. eauto.
Qed.

(** An overlap that is not 1 comes with a base line all of whose coefficients are 1. *)
Lemma ovrel_base_id : forall n t b c x, ovrel n t b c -> x < n -> c = kId \/ all_id (b x) = true.
Proof.
  intros n t b c x [H0 H] Hx. destruct (coef_eq c kId) eqn:Ec; [left; apply coef_eq_id; auto|right].
  destruct (b x) as [|e l] eqn:Eb; [reflexivity|]. rewrite <- Eb.
  destruct (H x Hx) as [[_ H1]|[H1 H2]]; [congruence| |].
  - subst c. rewrite coef_eq_refl in Ec. discriminate.
  - rewrite <- (op_eq_all_id _ _ H1). apply separate_snd_all_id.
    destruct (coef_eq (fst (separate (t x))) kId) eqn:E; auto.
    rewrite coef_eq_sym in H2. rewrite (coef_eq_trans _ _ _ H2 E) in Ec. discriminate.
Qed.

(** If every non-null element of the target line has coefficient 1, every overlap is 1. *)
Lemma ovrel_id : forall n t b c, ovrel n t b c -> (forall x, x < n -> t x <> [] -> op_coef (t x) = kId) -> c = kId.
Proof.
  intros n t b c [[H0|[x [Hx Hb]]] H] Ht; auto.
  destruct (H x Hx Hb) as [[_ H1]|[H1 H2]]; auto.
  assert (Htx : t x <> []).
  { intro E. apply Hb. apply op_eq_nil_iff in H1. apply H1. apply separate_snd_nil. auto. }
  specialize (Ht x Hx Htx). unfold op_coef in Ht. rewrite Ht in H2.
  rewrite coef_eq_sym in H2. apply coef_eq_id in H2. auto.
Qed.

(** The base line is null wherever the target line is null. *)
Lemma ovrel_supp : forall n t b c x, ovrel n t b c -> x < n -> t x = [] -> b x = [].
Proof.
  intros n t b c x [_ H] Hx Ht. destruct (b x) as [|e l] eqn:Eb; auto.
  destruct (H x Hx) as [[H1 _]|[H1 _]]; [congruence| |]; rewrite Ht, Eb in H1; discriminate.
Qed.

(** A target line with coefficients 1 only overlaps with lines of that kind. *)
Lemma ovrel_all_id : forall n t b c x, ovrel n t b c -> x < n -> all_id (t x) = true -> all_id (b x) = true.
Proof.
  intros n t b c x [_ H] Hx Ht. destruct (b x) as [|e l] eqn:Eb; auto. rewrite <- Eb.
  assert (Hb : b x <> []) by congruence.
  destruct (H x Hx Hb) as [[H1 _]|[H1 _]].
  - rewrite <- (op_eq_all_id _ _ H1). auto.
  - rewrite <- (op_eq_all_id _ _ H1). destruct (t x) as [|e' l'] eqn:Et; [reflexivity|].
    rewrite separate_all_id; auto; discriminate.
Qed.

Lemma ovrel_refl : forall n t, ovrel n t t kId.
Proof. intros. split; auto. intros. left. split; auto. apply op_eq_refl. Qed.

(** *** Linear combinations *)
Lemma upd_loop : forall A (F : nat -> A -> A) n (body : nat -> list A -> res (list A)) (f : nat -> A),
  (forall j w, j < n -> length w = n -> body j w = let! a := vget w j in vset w j (F j a)) ->
  for_loop 0 n body (map f (seq 0 n)) = Ok (map (fun j => F j (f j)) (seq 0 n)).
Proof.
  intros A F n body f H.
  destruct (for_loop_inv _ (fun k w => w = map (fun j => if j <? k then F j (f j) else f j) (seq 0 n)) body n 0
     (map f (seq 0 n))) as [w [H1 H2]].
  - apply map_ext_seq. intros. reflexivity.
  - intros k w Hk ->. set (w := map _ _). rewrite H; [|lia|unfold w; rewrite map_length, seq_length; auto].
    unfold w at 1. rewrite vget_map_seq by lia. cbn [bind].
    rewrite vset_ok by (unfold w; rewrite map_length, seq_length; lia).
    eexists; split; [reflexivity|]. apply nth_error_ext. intros i.
    destruct (lt_dec i n).
    + rewrite nth_error_map_seq by auto. destruct (Nat.eq_dec i k).
      * subst i. rewrite nth_error_upd_same by (unfold w; rewrite map_length, seq_length; lia).
        destruct (Nat.ltb_spec k k); [lia|]. destruct (Nat.ltb_spec k (S k)); [auto|lia].
      * rewrite nth_error_upd_other by auto. unfold w. rewrite nth_error_map_seq by auto.
        destruct (Nat.ltb_spec i k); destruct (Nat.ltb_spec i (S k)); auto; lia.
    + rewrite !(proj2 (nth_error_None _ _)); auto; rewrite ?upd_length; unfold w;
        rewrite ?map_length, ?seq_length; lia.
  - rewrite H1, H2. f_equal. apply map_ext_seq. intros j Hj. destruct (Nat.ltb_spec j (0 + n)); [auto|lia].
Qed.

Lemma repeat_map_seq : forall A (a : A) n s, repeat a n = map (fun _ => a) (seq s n).
Proof. induction n; intros; simpl; auto. f_equal. auto. Qed.

Lemma col_lincmb_spec : forall dbg m (cmb : list coef), wfo m -> 0 < length cmb -> length cmb <= cols m ->
  (forall i x, i < length cmb -> x < rows m -> nth i cmb [] <> [] -> mulok (nth i cmb []) (sm m x i)) ->
  col_lincmb dbg m cmb =
    Ok (map (fun x => psum (length cmb) (fun i => pm (nth i cmb []) (sm m x i))) (seq 0 (rows m))).
Proof.
  intros dbg m cmb W H0 Hl Hok. unfold col_lincmb.
  rewrite (proj2 (Nat.ltb_lt _ _) H0). rewrite assert_true. cbn [bind].
  rewrite (repeat_map_seq _ _ _ 0).
  destruct (for_loop_inv _ (fun k v => v = map (fun x => psum k (fun i => pm (nth i cmb []) (sm m x i))) (seq 0 (rows m)))
   (fun i v =>
    let! c := vget cmb i in
    if coef_eq c kId then
      for_loop 0 (rows m) (fun j w =>
        let! a := vget w j in let! e := oget_ m j i in vset w j (op_add a e)) v
    else if coef_eq c kNull then Ok v
    else
      for_loop 0 (rows m) (fun j w =>
        let! e := oget_ m j i in
        let! e' := scale_elem dbg c e in
        let! a := vget w j in vset w j (op_add a e')) v) (length cmb) 0
    (map (fun _ => kNullOp) (seq 0 (rows m)))) as [v [H1 H2]].
  - reflexivity.
  - intros i v Hi ->.
    assert (Hc : vget cmb i = Ok (nth i cmb [])).
    { unfold vget. rewrite (nth_error_nth' cmb []) by lia. reflexivity. }
    rewrite Hc. cbn [bind]. set (c := nth i cmb []) in *.
    destruct (coef_eq c kId) eqn:E1; [|destruct (coef_eq c kNull) eqn:E2].
    + rewrite upd_loop with (F := fun j a => op_add a (sm m j i)).
      * eexists; split; [reflexivity|]. apply map_ext_seq. intros x Hx. rewrite psum_S. f_equal.
        fold c. apply coef_eq_id in E1. rewrite E1. reflexivity.
      * intros j w Hj Hw. destruct (vget w j); cbn [bind]; auto. rewrite oget_sm by (auto; lia). reflexivity.
    + eexists; split; [reflexivity|]. apply map_ext_seq. intros x Hx. rewrite psum_S. fold c.
      apply coef_eq_null in E2. rewrite E2. reflexivity.
    + rewrite upd_loop with (F := fun j a => op_add a (set_coefs c (sm m j i))).
      * eexists; split; [reflexivity|]. apply map_ext_seq. intros x Hx. rewrite psum_S. f_equal.
        fold c. unfold pm. unfold coef_isnull. rewrite E2, E1. reflexivity.
      * intros j w Hj Hw. rewrite oget_sm by (auto; lia). cbn [bind]. unfold scale_elem.
        destruct (Hok i j) as [Hk|Hk]; try lia.
        -- fold c. intro. rewrite H in E2. discriminate.
        -- fold c in Hk. rewrite Hk in E1. discriminate.
        -- unfold all_id in Hk. rewrite Hk, assert_true. cbn [bind]. reflexivity.
  - rewrite H1, H2. reflexivity.
Qed.

Lemma row_lincmb_spec : forall dbg m (cmb : list coef), wfo m -> 0 < length cmb -> length cmb <= rows m ->
  (forall i y, i < length cmb -> y < cols m -> nth i cmb [] <> [] -> mulok (nth i cmb []) (sm m i y)) ->
  row_lincmb dbg m cmb =
    Ok (map (fun y => psum (length cmb) (fun i => pm (nth i cmb []) (sm m i y))) (seq 0 (cols m))).
Proof.
  intros dbg m cmb W H0 Hl Hok. unfold row_lincmb.
  rewrite (proj2 (Nat.ltb_lt _ _) H0). rewrite assert_true. cbn [bind].
  rewrite (repeat_map_seq _ _ _ 0).
  destruct (for_loop_inv _ (fun k v => v = map (fun y => psum k (fun i => pm (nth i cmb []) (sm m i y))) (seq 0 (cols m)))
   (fun i v =>
    let! c := vget cmb i in
    let! row := get_row kNullOp dbg m i in
    if coef_eq c kId then
      for_loop 0 (cols m) (fun j w =>
        let! a := vget w j in let! e := vget row j in vset w j (op_add a e)) v
    else if coef_eq c kNull then Ok v
    else
      for_loop 0 (cols m) (fun j w =>
        let! e := vget row j in
        let! e' := scale_elem dbg c e in
        let! a := vget w j in vset w j (op_add a e')) v) (length cmb) 0
    (map (fun _ => kNullOp) (seq 0 (cols m)))) as [v [H1 H2]].
  - reflexivity.
  - intros i v Hi ->.
    assert (Hc : vget cmb i = Ok (nth i cmb [])).
    { unfold vget. rewrite (nth_error_nth' cmb []) by lia. reflexivity. }
    rewrite Hc. cbn [bind]. rewrite get_row_sm by (auto; lia). cbn [bind]. set (c := nth i cmb []) in *.
    destruct (coef_eq c kId) eqn:E1; [|destruct (coef_eq c kNull) eqn:E2].
    + rewrite upd_loop with (F := fun j a => op_add a (sm m i j)).
      * eexists; split; [reflexivity|]. apply map_ext_seq. intros x Hx. rewrite psum_S. f_equal.
        fold c. apply coef_eq_id in E1. rewrite E1. reflexivity.
      * intros j w Hj Hw. destruct (vget w j); cbn [bind]; auto. unfold rowl. rewrite vget_map_seq by lia. reflexivity.
    + eexists; split; [reflexivity|]. apply map_ext_seq. intros x Hx. rewrite psum_S. fold c.
      apply coef_eq_null in E2. rewrite E2. reflexivity.
    + rewrite upd_loop with (F := fun j a => op_add a (set_coefs c (sm m i j))).
      * eexists; split; [reflexivity|]. apply map_ext_seq. intros x Hx. rewrite psum_S. f_equal.
        fold c. unfold pm. unfold coef_isnull. rewrite E2, E1. reflexivity.
      * intros j w Hj Hw. unfold rowl. rewrite vget_map_seq by lia. cbn [bind]. unfold scale_elem.
        destruct (Hok i j) as [Hk|Hk]; try lia.
        -- fold c. intro. rewrite H in E2. discriminate.
        -- fold c in Hk. rewrite Hk in E1. discriminate.
        -- unfold all_id in Hk. rewrite Hk, assert_true. cbn [bind]. reflexivity.
  - rewrite H1, H2. reflexivity.
Qed.

(** *** Candidate combinations *)
Lemma calc_col_lincmb_spec : forall dbg m c, wfo m -> c < cols m ->
  exists cmb, calc_col_lincmb dbg m c = Ok cmb /\ length cmb = c /\
    forall j, j < c -> nth j cmb [] = [] \/ ovrel (rows m) (fun x => sm m x c) (fun x => sm m x j) (nth j cmb []).
Proof.
  intros dbg m c W Hc. unfold calc_col_lincmb. rewrite get_col_sm by auto. cbn [bind]. unfold coll.
  destruct (for_loop_inv _ (fun k acc => length acc = k /\ forall j, j < k ->
      nth j acc [] = [] \/ ovrel (rows m) (fun x => sm m x c) (fun x => sm m x j) (nth j acc []))
    (fun y acc => let! k := col_overlap m (map (fun x => sm m x c) (seq 0 (rows m))) y in Ok (acc ++ [k])) c 0 [])
    as [cmb [H1 [H2 H3]]].
  - split; auto. intros; lia.
  - intros k acc Hk [Hl Ha].
    destruct (col_overlap_spec m (fun x => sm m x c) k W) as [q [Hq1 Hq2]]; [lia|].
    rewrite Hq1. cbn [bind]. eexists; split; [reflexivity|]. split; [rewrite app_length; simpl; lia|].
    intros j Hj. destruct (Nat.eq_dec j k).
    + subst j. rewrite app_nth2 by lia. rewrite Hl, Nat.sub_diag. auto.
    + rewrite app_nth1 by lia. apply Ha. lia.
  - exists cmb. auto.
Qed.

Lemma calc_row_lincmb_spec : forall dbg m r, wfo m -> r < rows m ->
  exists cmb, calc_row_lincmb dbg m r = Ok cmb /\ length cmb = r /\
    forall j, j < r -> nth j cmb [] = [] \/ ovrel (cols m) (fun y => sm m r y) (fun y => sm m j y) (nth j cmb []).
Proof.
  intros dbg m r W Hr. unfold calc_row_lincmb. rewrite get_row_sm by auto. cbn [bind].
  destruct (for_loop_inv _ (fun k f => match f with None => True | Some x => x < r /\
      forall y, y < cols m -> op_eq (sm m r y) (sm m x y) = true end)
    (fun x f => match f with
     | Some _ => Ok f
     | None => let! rx := get_row kNullOp dbg m x in Ok (if opvec_eq (rowl m r) rx then Some x else None)
     end) r 0 None) as [found [H1 H2]]; auto.
  { intros k f Hk Hf. destruct f as [x|].
    - eexists; split; [reflexivity|]. auto.
    - rewrite get_row_sm by (auto; lia). cbn [bind]. eexists; split; [reflexivity|].
      destruct (opvec_eq (rowl m r) (rowl m k)) eqn:E; auto. split; [lia|].
      intros y Hy. apply opvec_eq_map with (i := y) in E; auto. lia. }
  rewrite H1. cbn [bind]. destruct found as [x|].
  - destruct H2 as [Hx He].
    exists (upd (repeat kNull r) x kId). split; auto. split; [rewrite upd_length, repeat_length; auto|].
    intros j Hj. destruct (Nat.eq_dec j x).
    + subst j. right. erewrite (nth_error_nth _ x) by (apply nth_error_upd_same; rewrite repeat_length; auto).
      split; auto.
    + left. apply nth_error_nth. rewrite nth_error_upd_other by auto.
      rewrite nth_error_repeat by auto. reflexivity.
  - unfold rowl.
    destruct (for_loop_inv _ (fun k acc => length acc = k /\ forall j, j < k ->
        nth j acc [] = [] \/ ovrel (cols m) (fun y => sm m r y) (fun y => sm m j y) (nth j acc []))
      (fun x acc => let! k := row_overlap m (map (sm m r) (seq 0 (cols m))) x in Ok (acc ++ [k])) r 0 [])
      as [cmb [G1 [G2 G3]]].
    + split; auto. intros; lia.
    + intros k acc Hk [Hl Ha].
      destruct (row_overlap_spec m (sm m r) k W) as [q [Hq1 Hq2]]; [lia|].
      rewrite Hq1. cbn [bind]. eexists; split; [reflexivity|]. split; [rewrite app_length; simpl; lia|].
      intros j Hj. destruct (Nat.eq_dec j k).
      * subst j. rewrite app_nth2 by lia. rewrite Hl, Nat.sub_diag. auto.
      * rewrite app_nth1 by lia. apply Ha. lia.
    + exists cmb. auto.
Qed.

(** *** Delinearisation *)
Record dinv_col (T : opmat) (o : nat) (s : dstate) (kept : nat -> nat) : Prop := mkDC {
  dc_w : wfo (d_tgt s); dc_r : rows (d_tgt s) = rows T; dc_c : cols (d_tgt s) + d_del s = cols T;
  dc_i : 1 <= d_i s; dc_o : d_i s + d_del s = o;
  dc_tw : wfc (d_tr s); dc_tr : rows (d_tr s) + d_del s = cols T; dc_tc : cols (d_tr s) = cols T;
  dc_k1 : forall y, y < d_i s -> kept y < o;
  dc_k2 : forall y1 y2, y1 < y2 -> y2 < d_i s -> kept y1 < kept y2;
  dc_k3 : forall x y, x < rows T -> y < d_i s -> sm (d_tgt s) x y = sm T x (kept y);
  dc_k4 : forall x y, x < rows T -> d_i s <= y -> y + d_del s < cols T -> sm (d_tgt s) x y = sm T x (y + d_del s);
  dc_q1 : forall j o', j < rows (d_tr s) -> o' < cols T -> (d_i s <= j \/ o <= o') -> cm (d_tr s) j o' = [];
  dc_q2 : forall j j', j < d_i s -> j' < rows (d_tr s) -> cm (d_tr s) j' (kept j) = if j' =? j then kId else [];
  dc_q3 : forall o' x, o' < o -> x < rows T ->
    op_eq (psum (d_i s) (fun j => pm (cm (d_tr s) j o') (sm (d_tgt s) x j))) (sm T x o') = true;
  dc_q4 : forall o' j, o' < o -> j < d_i s -> cm (d_tr s) j o' <> [] ->
    ovrel (rows T) (fun x => sm T x o') (fun x => sm (d_tgt s) x j) (cm (d_tr s) j o')
}.

Definition msrt (m : opmat) : Prop := forall x y, x < rows m -> y < cols m -> sorted_keys 0 (sm m x y).

Lemma set_loop_spec : forall (cmb : list coef) i (f : nat -> nat * nat) tr, wfc tr -> length cmb = i ->
  (forall j, j < i -> fst (f j) < rows tr /\ snd (f j) < cols tr) ->
  (forall j j', j < i -> j' < i -> f j = f j' -> j = j') ->
  exists tr', for_loop 0 i (fun j tm => let! c := vget cmb j in cset tm (fst (f j)) (snd (f j)) c) tr = Ok tr' /\
    wfc tr' /\ rows tr' = rows tr /\ cols tr' = cols tr /\
    (forall r c, c < cols tr -> (forall j, j < i -> f j <> (r, c)) -> cm tr' r c = cm tr r c) /\
    (forall j, j < i -> cm tr (fst (f j)) (snd (f j)) = [] -> cm tr' (fst (f j)) (snd (f j)) = nth j cmb []).
Proof.
  intros cmb i f tr W Hl Hb Hi.
  destruct (for_loop_inv _ (fun k tm => wfc tm /\ rows tm = rows tr /\ cols tm = cols tr /\
     (forall r c, c < cols tr -> (forall j, j < k -> f j <> (r, c)) -> cm tm r c = cm tr r c) /\
     (forall j, j < k -> cm tr (fst (f j)) (snd (f j)) = [] -> cm tm (fst (f j)) (snd (f j)) = nth j cmb []))
    (fun j tm => let! c := vget cmb j in cset tm (fst (f j)) (snd (f j)) c) i 0 tr)
    as [tr' [H1 [H2 [H3 [H4 [H5 H6]]]]]].
  - split; [exact W|]. split; auto. split; auto. split; auto. intros; lia.
  - intros k tm Hk [W' [R' [C' [G1 G2]]]].
    assert (Hc : vget cmb k = Ok (nth k cmb [])).
    { unfold vget. rewrite (nth_error_nth' cmb []) by lia. reflexivity. }
    rewrite Hc. cbn [bind]. destruct (Hb k) as [B1 B2]; [lia|].
    destruct (cset_spec tm (fst (f k)) (snd (f k)) (nth k cmb []) W') as [tm' [K1 [K2 [K3 [K4 K5]]]]]; try lia.
    exists tm'. split; auto. split; [exact K2|]. split; [lia|]. split; [lia|]. split.
    + intros r c Hc' Hne. rewrite K5 by lia.
      destruct (Nat.eqb_spec (fst (f k)) r); [destruct (Nat.eqb_spec (snd (f k)) c)|].
      * exfalso. apply (Hne k); [lia|]. destruct (f k); simpl in *; congruence.
      * rewrite andb_false_r. apply G1; auto.
      * rewrite andb_false_r. simpl. apply G1; auto.
    + intros j Hj Hn. destruct (Hb j) as [B3 B4]; [lia|]. rewrite K5 by lia.
      destruct (Nat.eq_dec j k).
      * subst j. rewrite !Nat.eqb_refl, !andb_true_r.
        destruct (coef_isnull (nth k cmb [])) eqn:En; simpl; auto.
        apply coef_isnull_spec in En. rewrite En. rewrite G1; auto.
        intros j Hj' E. assert (j = k); [|lia]. apply Hi; try lia. rewrite E. destruct (f k); auto.
      * replace (negb (coef_isnull (nth k cmb [])) && (fst (f k) =? fst (f j)) && (snd (f k) =? snd (f j))) with false.
        -- apply G2; auto. lia.
        -- symmetry. destruct (Nat.eqb_spec (fst (f k)) (fst (f j))); [destruct (Nat.eqb_spec (snd (f k)) (snd (f j)))|];
             rewrite ?andb_false_r; auto.
           exfalso. apply n. apply Hi; try lia. destruct (f k), (f j); simpl in *; congruence.
  - exists tr'. repeat (split; [assumption|]). auto.
Qed.

Lemma col_delin_step_inv : forall dbg T o s kept k0, wfo T -> 1 <= rows T -> o < cols T ->
  dinv_col T o s kept -> (forall x y, x < rows T -> y < cols T -> sorted_keys 0 (sm T x y)) ->
  exists s' kept', col_delin_step dbg k0 s = Ok s' /\ dinv_col T (S o) s' kept'.
Proof.
  intros dbg T o s kept k0 W HR Ho D HS. unfold col_delin_step.
  pose proof (dc_o _ _ _ _ D) as Eo. pose proof (dc_c _ _ _ _ D) as Ec. pose proof (dc_r _ _ _ _ D) as Er.
  pose proof (dc_i _ _ _ _ D) as Ei. pose proof (dc_tr _ _ _ _ D) as Et. pose proof (dc_tc _ _ _ _ D) as Etc.
  pose proof (dc_w _ _ _ _ D) as Wt. pose proof (dc_tw _ _ _ _ D) as Wtr.
  set (i := d_i s) in *. set (del := d_del s) in *. set (M := d_tgt s) in *. set (tr := d_tr s) in *.
  destruct (calc_col_lincmb_spec dbg M i Wt) as [cmb [H1 [H2 H3]]]; [lia|].
  rewrite H1. cbn [bind].
  assert (Hov : forall j, j < i -> nth j cmb [] = [] \/
      ovrel (rows T) (fun x => sm T x o) (fun x => sm M x j) (nth j cmb [])).
  { intros j Hj. destruct (H3 j Hj) as [H|[Ha Hb]]; auto. right. rewrite Er in *. split.
    - destruct Ha as [Ha|Ha]; auto.
    - intros x Hx Hn. specialize (Hb x Hx Hn). cbv beta in Hb.
      replace (sm M x i) with (sm T x o) in Hb; auto.
      unfold M, i. rewrite (dc_k4 _ _ _ _ D) by (fold i del; lia). fold i del. f_equal. lia. }
  rewrite col_lincmb_spec; auto; try lia.
  2:{ rewrite H2, Er. intros j x Hj Hx Hn. destruct (Hov j Hj) as [H|H]; [congruence|].
      destruct (ovrel_base_id _ _ _ _ x H Hx); [left|right]; auto. }
  cbn [bind]. rewrite get_col_sm by (auto; lia). cbn [bind]. unfold coll.
  destruct (opvec_eq _ _) eqn:Eq.
  - (* deleted *)
    assert (Eq' : forall x, x < rows T ->
       op_eq (psum i (fun j => pm (nth j cmb []) (sm M x j))) (sm T x o) = true).
    { intros x Hx. pose proof (proj1 (opvec_eq_map _ _ _ _) Eq x) as Hq. rewrite Er in Hq. cbv beta in Hq.
      rewrite H2 in Hq. replace (sm T x o) with (sm M x i); [apply Hq; lia|].
      unfold M, i. rewrite (dc_k4 _ _ _ _ D) by (fold i del; lia). fold i del. f_equal. lia. }
    destruct (remove_col_spec _ _ _ dbg M i Wt) as [M' [R1 [R2 [R3 [R4 R5]]]]]; try lia.
    rewrite R1. cbn [bind].
    destruct (remove_row_spec _ _ _ dbg tr (rows tr - 1) Wtr) as [tr1 [S1 [S2 [S3 [S4 S5]]]]]; try lia.
    rewrite S1. cbn [bind].
    assert (Htr1 : forall j o', j < rows tr1 -> o' < cols T -> cm tr1 j o' = cm tr j o').
    { intros j o' Hj Ho'. unfold cm. rewrite S5 by lia. unfold skip.
      destruct (Nat.ltb_spec j (rows tr - 1)); [auto|lia]. }
    destruct (set_loop_spec cmb i (fun j => (j, i + del)) tr1 S2 H2) as [tr2 [U1 [U2 [U3 [U4 [U5 U6]]]]]].
    { intros j Hj. simpl. lia. }
    { intros j j' _ _ E. congruence. }
    cbn [fst snd] in U1, U6. rewrite U1. cbn [bind].
    exists (mkD i (S del) M' tr2), kept. split; [reflexivity|].
    assert (HM' : forall x j, x < rows T -> j < i -> sm M' x j = sm M x j).
    { intros x j Hx Hj. unfold sm. rewrite R5 by lia. unfold skip.
      destruct (Nat.ltb_spec j i); [auto|lia]. }
    assert (Hold : forall j o', j < rows tr2 -> o' < cols T -> o' <> o -> cm tr2 j o' = cm tr j o').
    { intros j o' Hj Ho' Hne. rewrite U5 by (try lia; intros; intro E; injection E; lia). apply Htr1; lia. }
    assert (Hnew : forall j, j < i -> cm tr2 j o = nth j cmb []).
    { intros j Hj. rewrite <- Eo. fold i del. apply U6; auto. rewrite Htr1 by lia.
      apply (dc_q1 _ _ _ _ D); [fold tr; lia|lia|]. right. lia. }
    assert (Hnew2 : forall j, j < rows tr2 -> i <= j -> cm tr2 j o = []).
    { intros j Hj Hij. rewrite U5; [|lia|intros; intro E; injection E; lia]. rewrite Htr1 by lia.
      apply (dc_q1 _ _ _ _ D); [fold tr; lia|lia|]. right. lia. }
    constructor; cbn [d_i d_del d_tgt d_tr]; try (fold i del M tr); auto; try lia.
    + intros y Hy. pose proof (dc_k1 _ _ _ _ D y Hy). lia.
    + apply (dc_k2 _ _ _ _ D).
    + intros x y Hx Hy. rewrite HM' by auto. apply (dc_k3 _ _ _ _ D); auto.
    + intros x y Hx Hy1 Hy2. unfold sm. rewrite R5 by lia. unfold skip.
      destruct (Nat.ltb_spec y i); [lia|]. fold (sm M x (S y)). unfold M.
      rewrite (dc_k4 _ _ _ _ D) by (fold i del; lia). fold del. unfold sm. f_equal. f_equal. lia.
    + intros j o' Hj Ho' Hc. destruct (Nat.eq_dec o' o).
      * subst o'. destruct Hc as [Hc|Hc]; [|lia]. apply Hnew2; auto.
      * rewrite Hold by auto. apply (dc_q1 _ _ _ _ D); fold tr i; lia.
    + intros j j' Hj Hj'. pose proof (dc_k1 _ _ _ _ D j Hj) as Hk. rewrite Hold by lia.
      apply (dc_q2 _ _ _ _ D); fold tr i; auto. lia.
    + intros o' x Ho' Hx. destruct (Nat.eq_dec o' o).
      * subst o'. rewrite (psum_ext _ _ (fun j => pm (nth j cmb []) (sm M x j))); auto.
        intros j Hj. rewrite Hnew, HM' by auto. reflexivity.
      * rewrite (psum_ext _ _ (fun j => pm (cm tr j o') (sm M x j))).
        -- apply (dc_q3 _ _ _ _ D); auto. lia.
        -- intros j Hj. rewrite Hold, HM' by (auto; lia). reflexivity.
    + intros o' j Ho' Hj Hn. destruct (Nat.eq_dec o' o).
      * subst o'. rewrite Hnew in * by auto. destruct (Hov j Hj) as [H|[Ha Hb]]; [congruence|]. split.
        -- destruct Ha as [Ha|[x [Hx Hb']]]; auto. right. exists x. rewrite HM' by auto. auto.
        -- intros x Hx Hb'. rewrite HM' in * by auto. auto.
      * rewrite Hold in * by (auto; lia).
        destruct (dc_q4 _ _ _ _ D o' j) as [Ha Hb]; auto; try lia. split.
        -- destruct Ha as [Ha|[x [Hx Hb']]]; auto. right. exists x. rewrite HM' by auto. auto.
        -- intros x Hx Hb'. rewrite HM' in * by auto. apply Hb; auto.
  - (* kept *)
    destruct (cset_spec tr i (i + del) kId Wtr) as [tr2 [U1 [U2 [U3 [U4 U5]]]]]; try lia.
    rewrite U1. cbn [bind].
    exists (mkD (S i) del M tr2), (fun y => if y =? i then o else kept y). split; [reflexivity|].
    assert (Htr2 : forall j o', o' < cols T -> cm tr2 j o' = if (i =? j) && (o =? o') then kId else cm tr j o').
    { intros j o' Ho'. rewrite U5 by lia. rewrite <- Eo. reflexivity. }
    assert (HMi : forall x, x < rows T -> sm M x i = sm T x o).
    { intros x Hx. unfold M, i. rewrite (dc_k4 _ _ _ _ D) by (fold i del; lia). fold i del. f_equal. lia. }
    constructor; cbn [d_i d_del d_tgt d_tr]; try (fold i del M tr); auto; try lia.
    + intros y Hy. destruct (Nat.eqb_spec y i); [lia|]. assert (Hy' : y < d_i s) by (fold i; lia).
      pose proof (dc_k1 _ _ _ _ D y Hy'). lia.
    + intros y1 y2 Hy1 Hy2. destruct (Nat.eqb_spec y1 i); [lia|]. destruct (Nat.eqb_spec y2 i).
      * assert (Hy' : y1 < d_i s) by (fold i; lia). apply (dc_k1 _ _ _ _ D y1 Hy').
      * apply (dc_k2 _ _ _ _ D); auto. fold i. lia.
    + intros x y Hx Hy. destruct (Nat.eqb_spec y i); [subst y; auto|]. apply (dc_k3 _ _ _ _ D); auto. fold i; lia.
    + intros x y Hx Hy1 Hy2. apply (dc_k4 _ _ _ _ D); auto. fold i. lia.
    + intros j o' Hj Ho' Hc. rewrite Htr2 by auto.
      replace ((i =? j) && (o =? o')) with false.
      * apply (dc_q1 _ _ _ _ D); fold tr i; lia.
      * symmetry. destruct (Nat.eqb_spec i j); destruct (Nat.eqb_spec o o'); auto; lia.
    + intros j j' Hj Hj'. destruct (Nat.eqb_spec j i).
      * subst j. rewrite Htr2 by lia. rewrite Nat.eqb_refl, andb_true_r, (Nat.eqb_sym i j').
        destruct (j' =? i); auto. apply (dc_q1 _ _ _ _ D); fold tr i; lia.
      * assert (Hj2 : j < d_i s) by (fold i; lia). pose proof (dc_k1 _ _ _ _ D j Hj2) as Hk.
        rewrite Htr2 by lia.
        destruct (Nat.eqb_spec o (kept j)); [lia|]. rewrite andb_false_r.
        apply (dc_q2 _ _ _ _ D); fold tr i; auto. lia.
    + intros o' x Ho' Hx. destruct (Nat.eq_dec o' o).
      * subst o'. rewrite (psum_single _ _ i).
        -- rewrite Htr2 by auto. rewrite !Nat.eqb_refl. simpl andb. cbv iota. rewrite pm_id, HMi by auto. apply op_eq_refl.
        -- lia.
        -- intros j Hj Hne. rewrite Htr2 by auto. destruct (Nat.eqb_spec i j); [lia|]. simpl andb. cbv iota.
           replace (cm tr j o) with (@nil nat) by (symmetry; apply (dc_q1 _ _ _ _ D); fold tr i; lia). reflexivity.
        -- rewrite Htr2 by auto. rewrite !Nat.eqb_refl. simpl andb. cbv iota. rewrite pm_id, HMi by auto. auto.
      * rewrite psum_S. rewrite (psum_ext _ _ (fun j => pm (cm tr j o') (sm M x j))).
        -- rewrite Htr2 by lia. destruct (Nat.eqb_spec o o'); [lia|]. rewrite andb_false_r.
           replace (cm tr i o') with (@nil nat) by (symmetry; apply (dc_q1 _ _ _ _ D); fold tr i; lia). rewrite pm_null, op_add_nil_r.
           apply (dc_q3 _ _ _ _ D); auto. lia.
        -- intros j Hj. rewrite Htr2 by lia. destruct (Nat.eqb_spec o o'); [lia|]. rewrite andb_false_r. reflexivity.
    + intros o' j Ho' Hj Hn. rewrite Htr2 in * by lia.
      destruct (Nat.eqb_spec i j); destruct (Nat.eqb_spec o o'); simpl andb in *; cbv iota in *.
      * subst j o'. split; auto. intros x Hx Hb. left. split; auto. rewrite HMi by auto. apply op_eq_refl.
      * exfalso. apply Hn. apply (dc_q1 _ _ _ _ D); fold tr i; lia.
      * exfalso. apply Hn. apply (dc_q1 _ _ _ _ D); fold tr i; lia.
      * apply (dc_q4 _ _ _ _ D); auto; fold i; lia.
Qed.

Record dinv_row (T : opmat) (o : nat) (s : dstate) (kept : nat -> nat) : Prop := mkDR {
  dr_w : wfo (d_tgt s); dr_r : cols (d_tgt s) = cols T; dr_c : rows (d_tgt s) + d_del s = rows T;
  dr_i : 1 <= d_i s; dr_o : d_i s + d_del s = o;
  dr_tw : wfc (d_tr s); dr_tr : cols (d_tr s) + d_del s = rows T; dr_tc : rows (d_tr s) = rows T;
  dr_k1 : forall y, y < d_i s -> kept y < o;
  dr_k2 : forall y1 y2, y1 < y2 -> y2 < d_i s -> kept y1 < kept y2;
  dr_k3 : forall x y, x < cols T -> y < d_i s -> sm (d_tgt s) y x = sm T (kept y) x;
  dr_k4 : forall x y, x < cols T -> d_i s <= y -> y + d_del s < rows T -> sm (d_tgt s) y x = sm T (y + d_del s) x;
  dr_q1 : forall j o', j < cols (d_tr s) -> o' < rows T -> (d_i s <= j \/ o <= o') -> cm (d_tr s) o' j = [];
  dr_q2 : forall j j', j < d_i s -> j' < cols (d_tr s) -> cm (d_tr s) (kept j) j' = if j' =? j then kId else [];
  dr_q3 : forall o' x, o' < o -> x < cols T ->
    op_eq (psum (d_i s) (fun j => pm (cm (d_tr s) o' j) (sm (d_tgt s) j x))) (sm T o' x) = true;
  dr_q4 : forall o' j, o' < o -> j < d_i s -> cm (d_tr s) o' j <> [] ->
    ovrel (cols T) (fun x => sm T o' x) (fun x => sm (d_tgt s) j x) (cm (d_tr s) o' j)
}.


Lemma row_delin_step_inv : forall dbg T o s kept k0, wfo T -> 1 <= cols T -> o < rows T ->
  dinv_row T o s kept -> (forall x y, x < cols T -> y < rows T -> sorted_keys 0 (sm T y x)) ->
  exists s' kept', row_delin_step dbg k0 s = Ok s' /\ dinv_row T (S o) s' kept'.
Proof.
  intros dbg T o s kept k0 W HR Ho D HS. unfold row_delin_step.
  pose proof (dr_o _ _ _ _ D) as Eo. pose proof (dr_c _ _ _ _ D) as Ec. pose proof (dr_r _ _ _ _ D) as Er.
  pose proof (dr_i _ _ _ _ D) as Ei. pose proof (dr_tr _ _ _ _ D) as Et. pose proof (dr_tc _ _ _ _ D) as Etc.
  pose proof (dr_w _ _ _ _ D) as Wt. pose proof (dr_tw _ _ _ _ D) as Wtr.
  set (i := d_i s) in *. set (del := d_del s) in *. set (M := d_tgt s) in *. set (tr := d_tr s) in *.
  destruct (calc_row_lincmb_spec dbg M i Wt) as [cmb [H1 [H2 H3]]]; [lia|].
  rewrite H1. cbn [bind].
  assert (Hov : forall j, j < i -> nth j cmb [] = [] \/
      ovrel (cols T) (fun x => sm T o x) (fun x => sm M j x) (nth j cmb [])).
  { intros j Hj. destruct (H3 j Hj) as [H|[Ha Hb]]; auto. right. rewrite Er in *. split.
    - destruct Ha as [Ha|Ha]; auto.
    - intros x Hx Hn. specialize (Hb x Hx Hn). cbv beta in Hb.
      replace (sm M i x) with (sm T o x) in Hb; auto.
      unfold M, i. rewrite (dr_k4 _ _ _ _ D) by (fold i del; lia). fold i del. f_equal. lia. }
  rewrite row_lincmb_spec; auto; try lia.
  2:{ rewrite H2, Er. intros j x Hj Hx Hn. destruct (Hov j Hj) as [H|H]; [congruence|].
      destruct (ovrel_base_id _ _ _ _ x H Hx); [left|right]; auto. }
  cbn [bind]. rewrite get_row_sm by (auto; lia). cbn [bind]. unfold rowl.
  destruct (opvec_eq _ _) eqn:Eq.
  - (* deleted *)
    assert (Eq' : forall x, x < cols T ->
       op_eq (psum i (fun j => pm (nth j cmb []) (sm M j x))) (sm T o x) = true).
    { intros x Hx. pose proof (proj1 (opvec_eq_map _ _ _ _) Eq x) as Hq. rewrite Er in Hq. cbv beta in Hq.
      rewrite H2 in Hq. replace (sm T o x) with (sm M i x); [apply Hq; lia|].
      unfold M, i. rewrite (dr_k4 _ _ _ _ D) by (fold i del; lia). fold i del. f_equal. lia. }
    destruct (remove_row_spec _ _ _ dbg M i Wt) as [M' [R1 [R2 [R3 [R4 R5]]]]]; try lia.
    rewrite R1. cbn [bind].
    destruct (remove_col_spec _ _ _ dbg tr (cols tr - 1) Wtr) as [tr1 [S1 [S2 [S3 [S4 S5]]]]]; try lia.
    rewrite S1. cbn [bind].
    assert (Htr1 : forall j o', j < cols tr1 -> o' < rows T -> cm tr1 o' j = cm tr o' j).
    { intros j o' Hj Ho'. unfold cm. rewrite S5 by lia. unfold skip.
      destruct (Nat.ltb_spec j (cols tr - 1)); [auto|lia]. }
    destruct (set_loop_spec cmb i (fun j => (i + del, j)) tr1 S2 H2) as [tr2 [U1 [U2 [U3 [U4 [U5 U6]]]]]].
    { intros j Hj. simpl. lia. }
    { intros j j' _ _ E. congruence. }
    cbn [fst snd] in U1, U6. rewrite U1. cbn [bind].
    exists (mkD i (S del) M' tr2), kept. split; [reflexivity|].
    assert (HM' : forall x j, x < cols T -> j < i -> sm M' j x = sm M j x).
    { intros x j Hx Hj. unfold sm. rewrite R5 by lia. unfold skip.
      destruct (Nat.ltb_spec j i); [auto|lia]. }
    assert (Hold : forall j o', j < cols tr2 -> o' < rows T -> o' <> o -> cm tr2 o' j = cm tr o' j).
    { intros j o' Hj Ho' Hne. rewrite U5 by (try lia; intros; intro E; injection E; lia). apply Htr1; lia. }
    assert (Hnew : forall j, j < i -> cm tr2 o j = nth j cmb []).
    { intros j Hj. rewrite <- Eo. fold i del. apply U6; auto. rewrite Htr1 by lia.
      apply (dr_q1 _ _ _ _ D); [fold tr; lia|lia|]. right. lia. }
    assert (Hnew2 : forall j, j < cols tr2 -> i <= j -> cm tr2 o j = []).
    { intros j Hj Hij. rewrite U5; [|lia|intros; intro E; injection E; lia]. rewrite Htr1 by lia.
      apply (dr_q1 _ _ _ _ D); [fold tr; lia|lia|]. right. lia. }
    constructor; cbn [d_i d_del d_tgt d_tr]; try (fold i del M tr); auto; try lia.
    + intros y Hy. pose proof (dr_k1 _ _ _ _ D y Hy). lia.
    + apply (dr_k2 _ _ _ _ D).
    + intros x y Hx Hy. rewrite HM' by auto. apply (dr_k3 _ _ _ _ D); auto.
    + intros x y Hx Hy1 Hy2. unfold sm. rewrite R5 by lia. unfold skip.
      destruct (Nat.ltb_spec y i); [lia|]. fold (sm M (S y) x). unfold M.
      rewrite (dr_k4 _ _ _ _ D) by (fold i del; lia). fold del. unfold sm. f_equal. f_equal. lia.
    + intros j o' Hj Ho' Hc. destruct (Nat.eq_dec o' o).
      * subst o'. destruct Hc as [Hc|Hc]; [|lia]. apply Hnew2; auto.
      * rewrite Hold by auto. apply (dr_q1 _ _ _ _ D); fold tr i; lia.
    + intros j j' Hj Hj'. pose proof (dr_k1 _ _ _ _ D j Hj) as Hk. rewrite Hold by lia.
      apply (dr_q2 _ _ _ _ D); fold tr i; auto. lia.
    + intros o' x Ho' Hx. destruct (Nat.eq_dec o' o).
      * subst o'. rewrite (psum_ext _ _ (fun j => pm (nth j cmb []) (sm M j x))); auto.
        intros j Hj. rewrite Hnew, HM' by auto. reflexivity.
      * rewrite (psum_ext _ _ (fun j => pm (cm tr o' j) (sm M j x))).
        -- apply (dr_q3 _ _ _ _ D); auto. lia.
        -- intros j Hj. rewrite Hold, HM' by (auto; lia). reflexivity.
    + intros o' j Ho' Hj Hn. destruct (Nat.eq_dec o' o).
      * subst o'. rewrite Hnew in * by auto. destruct (Hov j Hj) as [H|[Ha Hb]]; [congruence|]. split.
        -- destruct Ha as [Ha|[x [Hx Hb']]]; auto. right. exists x. rewrite HM' by auto. auto.
        -- intros x Hx Hb'. rewrite HM' in * by auto. auto.
      * rewrite Hold in * by (auto; lia).
        destruct (dr_q4 _ _ _ _ D o' j) as [Ha Hb]; auto; try lia. split.
        -- destruct Ha as [Ha|[x [Hx Hb']]]; auto. right. exists x. rewrite HM' by auto. auto.
        -- intros x Hx Hb'. rewrite HM' in * by auto. apply Hb; auto.
  - (* kept *)
    destruct (cset_spec tr (i + del) i kId Wtr) as [tr2 [U1 [U2 [U3 [U4 U5]]]]]; try lia.
    rewrite U1. cbn [bind].
    exists (mkD (S i) del M tr2), (fun y => if y =? i then o else kept y). split; [reflexivity|].
    assert (Htr2 : forall j o', j < cols tr -> o' < rows T -> cm tr2 o' j = if (i =? j) && (o =? o') then kId else cm tr o' j).
    { intros j o' Hj Ho'. rewrite U5 by lia. rewrite <- Eo, (andb_comm (i =? j)). reflexivity. }
    assert (HMi : forall x, x < cols T -> sm M i x = sm T o x).
    { intros x Hx. unfold M, i. rewrite (dr_k4 _ _ _ _ D) by (fold i del; lia). fold i del. f_equal. lia. }
    constructor; cbn [d_i d_del d_tgt d_tr]; try (fold i del M tr); auto; try lia.
    + intros y Hy. destruct (Nat.eqb_spec y i); [lia|]. assert (Hy' : y < d_i s) by (fold i; lia).
      pose proof (dr_k1 _ _ _ _ D y Hy'). lia.
    + intros y1 y2 Hy1 Hy2. destruct (Nat.eqb_spec y1 i); [lia|]. destruct (Nat.eqb_spec y2 i).
      * assert (Hy' : y1 < d_i s) by (fold i; lia). apply (dr_k1 _ _ _ _ D y1 Hy').
      * apply (dr_k2 _ _ _ _ D); auto. fold i. lia.
    + intros x y Hx Hy. destruct (Nat.eqb_spec y i); [subst y; auto|]. apply (dr_k3 _ _ _ _ D); auto. fold i; lia.
    + intros x y Hx Hy1 Hy2. apply (dr_k4 _ _ _ _ D); auto. fold i. lia.
    + intros j o' Hj Ho' Hc. rewrite Htr2 by (auto; lia).
      replace ((i =? j) && (o =? o')) with false.
      * apply (dr_q1 _ _ _ _ D); fold tr i; lia.
      * symmetry. destruct (Nat.eqb_spec i j); destruct (Nat.eqb_spec o o'); auto; lia.
    + intros j j' Hj Hj'. destruct (Nat.eqb_spec j i).
      * subst j. rewrite Htr2 by lia. rewrite Nat.eqb_refl, andb_true_r, (Nat.eqb_sym i j').
        destruct (j' =? i); auto. apply (dr_q1 _ _ _ _ D); fold tr i; lia.
      * assert (Hj2 : j < d_i s) by (fold i; lia). pose proof (dr_k1 _ _ _ _ D j Hj2) as Hk.
        rewrite Htr2 by lia.
        destruct (Nat.eqb_spec o (kept j)); [lia|]. rewrite andb_false_r.
        apply (dr_q2 _ _ _ _ D); fold tr i; auto. lia.
    + intros o' x Ho' Hx. destruct (Nat.eq_dec o' o).
      * subst o'. rewrite (psum_single _ _ i).
        -- rewrite Htr2 by (auto; lia). rewrite !Nat.eqb_refl. simpl andb. cbv iota. rewrite pm_id, HMi by auto. apply op_eq_refl.
        -- lia.
        -- intros j Hj Hne. rewrite Htr2 by (auto; lia). destruct (Nat.eqb_spec i j); [lia|]. simpl andb. cbv iota.
           replace (cm tr o j) with (@nil nat) by (symmetry; apply (dr_q1 _ _ _ _ D); fold tr i; lia). reflexivity.
        -- rewrite Htr2 by (auto; lia). rewrite !Nat.eqb_refl. simpl andb. cbv iota. rewrite pm_id, HMi by auto. auto.
      * rewrite psum_S. rewrite (psum_ext _ _ (fun j => pm (cm tr o' j) (sm M j x))).
        -- rewrite Htr2 by lia. destruct (Nat.eqb_spec o o'); [lia|]. rewrite andb_false_r.
           replace (cm tr o' i) with (@nil nat) by (symmetry; apply (dr_q1 _ _ _ _ D); fold tr i; lia). rewrite pm_null, op_add_nil_r.
           apply (dr_q3 _ _ _ _ D); auto. lia.
        -- intros j Hj. rewrite Htr2 by lia. destruct (Nat.eqb_spec o o'); [lia|]. rewrite andb_false_r. reflexivity.
    + intros o' j Ho' Hj Hn. rewrite Htr2 in * by lia.
      destruct (Nat.eqb_spec i j); destruct (Nat.eqb_spec o o'); simpl andb in *; cbv iota in *.
      * subst j o'. split; auto. intros x Hx Hb. left. split; auto. rewrite HMi by auto. apply op_eq_refl.
      * exfalso. apply Hn. apply (dr_q1 _ _ _ _ D); fold tr i; lia.
      * exfalso. apply Hn. apply (dr_q1 _ _ _ _ D); fold tr i; lia.
      * apply (dr_q4 _ _ _ _ D); auto; fold i; lia.
Qed.

Lemma col_delin_loop : forall dbg T, wfo T -> msrt T -> 1 <= rows T -> 1 <= cols T ->
  exists tr0 s kept, cset (mat_new (cols T) (cols T)) 0 0 kId = Ok tr0 /\
    for_loop 1 (cols T - 1) (col_delin_step dbg) (mkD 1 0 T tr0) = Ok s /\ dinv_col T (cols T) s kept.
Proof.
  intros dbg T W HS HR HC.
  destruct (cset_spec (mat_new (cols T) (cols T)) 0 0 kId) as [tr0 [H1 [H2 [H3 [H4 H5]]]]];
    try (simpl; lia); [apply wf_new|].
  simpl rows in H3. simpl cols in H4, H5.
  exists tr0.
  destruct (for_loop_inv _ (fun o s => exists kept, dinv_col T o s kept) (col_delin_step dbg) (cols T - 1) 1
    (mkD 1 0 T tr0)) as [s [G1 [kept G2]]].
  - exists (fun _ => 0). constructor; cbn [d_i d_del d_tgt d_tr]; auto; try lia.
    + intros x y Hx Hy. replace y with 0 by lia. reflexivity.
    + intros j o' Hj Ho' Hc. rewrite H5 by auto. rewrite cm_new.
      destruct j; destruct o'; auto. lia.
    + intros j j' Hj Hj'. rewrite H5 by lia. rewrite cm_new. replace j with 0 by lia. simpl.
      rewrite andb_true_r. destruct j'; reflexivity.
    + intros o' x Ho' Hx. replace o' with 0 by lia. rewrite psum_S, psum_0. rewrite H5 by lia. simpl andb. cbv iota.
      rewrite pm_id, op_add_nil_l by (apply HS; auto; lia). apply op_eq_refl.
    + intros o' j Ho' Hj Hn. replace o' with 0 in * by lia. replace j with 0 in * by lia.
      rewrite H5 by lia. simpl andb. cbv iota. apply ovrel_refl.
  - intros o s Ho [kept D]. destruct (col_delin_step_inv dbg T o s kept o W HR) as [s' [kept' [K1 K2]]]; auto; try lia.
    exists s'. eauto.
  - exists s, kept. replace (1 + (cols T - 1)) with (cols T) in G2 by lia. auto.
Qed.

Lemma row_delin_loop : forall dbg T, wfo T -> msrt T -> 1 <= rows T -> 1 <= cols T ->
  exists tr0 s kept, cset (mat_new (rows T) (rows T)) 0 0 kId = Ok tr0 /\
    for_loop 1 (rows T - 1) (row_delin_step dbg) (mkD 1 0 T tr0) = Ok s /\ dinv_row T (rows T) s kept.
Proof.
  intros dbg T W HS HR HC.
  destruct (cset_spec (mat_new (rows T) (rows T)) 0 0 kId) as [tr0 [H1 [H2 [H3 [H4 H5]]]]];
    try (simpl; lia); [apply wf_new|].
  simpl rows in H3. simpl cols in H4, H5.
  exists tr0.
  destruct (for_loop_inv _ (fun o s => exists kept, dinv_row T o s kept) (row_delin_step dbg) (rows T - 1) 1
    (mkD 1 0 T tr0)) as [s [G1 [kept G2]]].
  - exists (fun _ => 0). constructor; cbn [d_i d_del d_tgt d_tr]; auto; try lia.
    + intros x y Hx Hy. replace y with 0 by lia. reflexivity.
    + intros j o' Hj Ho' Hc. rewrite H5 by lia. rewrite cm_new.
      destruct j; destruct o'; auto. lia.
    + intros j j' Hj Hj'. rewrite H5 by lia. rewrite cm_new. replace j with 0 by lia. simpl.
      destruct j'; reflexivity.
    + intros o' x Ho' Hx. replace o' with 0 by lia. rewrite psum_S, psum_0. rewrite H5 by lia. simpl andb. cbv iota.
      rewrite pm_id, op_add_nil_l by (apply HS; auto; lia). apply op_eq_refl.
    + intros o' j Ho' Hj Hn. replace o' with 0 in * by lia. replace j with 0 in * by lia.
      rewrite H5 by lia. simpl andb. cbv iota. apply ovrel_refl.
  - intros o s Ho [kept D]. destruct (row_delin_step_inv dbg T o s kept o W HC) as [s' [kept' [K1 K2]]]; auto; try lia.
    exists s'. eauto.
  - exists s, kept. replace (1 + (rows T - 1)) with (rows T) in G2 by lia. auto.
Qed.

(** *** What one compression step does to a pair (target, follower)

    Lines are the columns of the target for the column version and its rows for the row version; [T x y]
    is entry number [x] of line [y], [F y z] is the follower with its [y] index on the same bond. *)
Record ccomp (R n : nat) (T : nat -> nat -> oprepr) (k : nat) (T' : nat -> nat -> oprepr)
  (p : list nat) (cy : nat -> coef) (tr : nat -> nat -> coef) (kept : nat -> nat) : Prop := mkCC {
  cc_p : is_perm n p;
  cc_k : 1 <= k <= n;
  cc_cy : forall y, y < n -> cy y = common_coef (map (fun x => T x (pget p y)) (seq 0 R));
  cc_k1 : forall j, j < k -> kept j < n;
  cc_k2 : forall j1 j2, j1 < j2 -> j2 < k -> kept j1 < kept j2;
  cc_T' : forall x j, x < R -> j < k -> T' x j = sepd (cy (kept j)) (T x (pget p (kept j)));
  cc_trk : forall j j', j < k -> j' < k -> tr j' (kept j) = if j' =? j then kId else [];
  cc_sum : forall o x, o < n -> x < R ->
    op_eq (psum k (fun j => pm (tr j o) (T' x j))) (sepd (cy o) (T x (pget p o))) = true;
  cc_ov : forall o j, o < n -> j < k -> tr j o <> [] ->
    ovrel R (fun x => sepd (cy o) (T x (pget p o))) (fun x => T' x j) (tr j o)
}.

Definition F2 (F : nat -> nat -> oprepr) (p : list nat) (cy : nat -> coef) (o z : nat) : oprepr :=
  pm (dcoef (cy o)) (F (pget p o) z).
Definition ok1 (n C : nat) (F : nat -> nat -> oprepr) (p : list nat) (cy : nat -> coef) : Prop :=
  forall o z, o < n -> z < C -> mulok (dcoef (cy o)) (F (pget p o) z).
Definition ok2 (n k C : nat) (F : nat -> nat -> oprepr) (p : list nat) (cy : nat -> coef) (tr : nat -> nat -> coef) : Prop :=
  forall j o z, j < k -> o < n -> z < C -> tr j o <> [] -> mulok (tr j o) (F2 F p cy o z).
Definition Fnew (n : nat) (F : nat -> nat -> oprepr) (p : list nat) (cy : nat -> coef) (tr : nat -> nat -> coef)
  (j z : nat) : oprepr := psum n (fun o => pm (tr j o) (F2 F p cy o z)).

Lemma pm_sorted : forall c o, sorted_keys 0 o -> sorted_keys 0 (pm c o).
Proof.
  intros. unfold pm. destruct (coef_isnull c); [exact I|]. destruct (coef_eq c kId); auto.
  apply set_coefs_sorted. auto.
Qed.
Lemma sepd_sorted : forall c o, sorted_keys 0 o -> sorted_keys 0 (sepd c o).
Proof. intros. unfold sepd. destruct (nontriv c); auto. apply separate_snd_sorted. auto. Qed.

Lemma dcoef_triv : forall c, nontriv c = false -> dcoef c = kId.
Proof.
  intros c H. unfold nontriv, dcoef in *. destruct (coef_eq c kNull); auto. simpl in *.
  apply negb_false_iff in H. apply coef_eq_id. auto.
Qed.

(** A strictly increasing map of [n] numbers into themselves is the identity. *)
Lemma incr_id : forall n (f : nat -> nat), (forall j, j < n -> f j < n) ->
  (forall j1 j2, j1 < j2 -> j2 < n -> f j1 < f j2) -> forall j, j < n -> f j = j.
Proof.
  intros n f H1 H2.
  assert (Hge : forall j, j < n -> j <= f j).
  { induction j; intros Hj; [lia|]. pose proof (H2 j (S j)). specialize (IHj ltac:(lia)). lia. }
  assert (Hle : forall d j, j + d = n - 1 -> j < n -> f j <= j).
  { induction d; intros j Hd Hj.
    - pose proof (H1 j Hj). lia.
    - pose proof (H2 j (S j)). specialize (IHd (S j) ltac:(lia) ltac:(lia)). lia. }
  intros j Hj. pose proof (Hge j Hj). pose proof (Hle (n - 1 - j) j ltac:(lia) Hj). lia.
Qed.

Lemma col_compress_spec : forall dbg T F, wfo T -> wfo F -> msrt T -> msrt F -> cols T = rows F ->
  1 <= rows T -> 2 <= cols T ->
  exists k T' p cy tr kept, ccomp (rows T) (cols T) (sm T) k T' p cy tr kept /\
   (ok1 (cols T) (cols F) (sm F) p cy -> ok2 (cols T) k (cols F) (sm F) p cy tr ->
      exists Tm Fm, col_compress dbg T F = Ok (Tm, Fm) /\ wfo Tm /\ wfo Fm /\ msrt Tm /\ msrt Fm /\
        rows Tm = rows T /\ cols Tm = k /\ rows Fm = k /\ cols Fm = cols F /\
        (forall x j, x < rows T -> j < k -> sm Tm x j = T' x j) /\
        (forall j z, j < k -> z < cols F -> sm Fm j z = Fnew (cols T) (sm F) p cy tr j z)) /\
   (forall r, dbg = true -> col_compress dbg T F = Ok r ->
      ok1 (cols T) (cols F) (sm F) p cy /\ ok2 (cols T) k (cols F) (sm F) p cy tr).
Proof.
  intros dbg T F WT WF ST SF Hd HR Hn. set (n := cols T) in *.
  destruct (sort_cols_spec dbg T WT) as [t1 [p [A1 [A2 [A3 [A4 [A5 A6]]]]]]].
  destruct (transpose_rows_sm dbg F p WF) as [f1 [B1 [B2 [B3 [B4 B5]]]]]; [rewrite <- Hd; auto|].
  destruct (sep_cols_spec t1 A3) as [t2 [d [need [C1 [C2 [C3 [C4 [C5 [C6 [C7 [C8 [C9 C10]]]]]]]]]]]].
  rewrite A5 in *. fold n in C1, C4, C6, C7, C8, C9, C10.
  assert (HP : forall y, y < n -> pget p y < n) by (intros y Hy; destruct (is_perm_nth _ _ _ A2 Hy) as [v [Hv1 Hv2]]; unfold pget; rewrite (nth_error_nth _ _ _ Hv1); exact Hv2).
  set (cy := fun y => common_coef (coll t1 y)) in *.
  assert (Hcy : forall y, y < n -> cy y = common_coef (map (fun x => sm T x (pget p y)) (seq 0 (rows T)))).
  { intros y Hy. unfold cy, coll. rewrite A4. f_equal. apply map_ext_seq. intros x Hx. apply A6; fold n; lia. }
  assert (Ht2 : forall x y, x < rows T -> y < n -> sm t2 x y = sepd (cy y) (sm T x (pget p y))).
  { intros x y Hx Hy. rewrite C8 by lia. rewrite A6 by auto. reflexivity. }
  assert (S2 : msrt t2).
  { intros x y Hx Hy. rewrite Ht2 by lia. apply sepd_sorted. apply ST; fold n; try lia. apply HP. lia. }
  assert (Sf1 : msrt f1).
  { intros x y Hx Hy. rewrite B5 by lia. apply SF; try lia. rewrite <- Hd. apply HP. lia. }
  destruct (col_delin_loop dbg t2 C2 S2) as [tr0 [s [kept [E1 [E2 D]]]]]; try lia.
  set (tr := fun j o => cm (d_tr s) j o).
  exists (d_i s), (sm (d_tgt s)), p, cy, tr, kept.
  pose proof (dc_o _ _ _ _ D) as Eo. pose proof (dc_c _ _ _ _ D) as Ec. pose proof (dc_tr _ _ _ _ D) as Et.
  pose proof (dc_i _ _ _ _ D) as Ei. rewrite C4 in *.
  assert (CC : ccomp (rows T) n (sm T) (d_i s) (sm (d_tgt s)) p cy tr kept).
  { constructor; auto.
    - split; auto. lia.
    - intros j Hj. apply (dc_k1 _ _ _ _ D) in Hj. lia.
    - apply (dc_k2 _ _ _ _ D).
    - intros x j Hx Hj. rewrite (dc_k3 _ _ _ _ D) by (auto; lia). apply Ht2; auto.
      apply (dc_k1 _ _ _ _ D) in Hj. lia.
    - intros j j' Hj Hj'. apply (dc_q2 _ _ _ _ D); auto. lia.
    - intros o x Ho Hx. rewrite <- Ht2 by auto. apply (dc_q3 _ _ _ _ D); lia.
    - intros o j Ho Hj Htr. destruct (dc_q4 _ _ _ _ D o j) as [Q1 Q2]; auto; try lia.
      rewrite C3, A4 in *. split; auto. intros x Hx Hb. rewrite <- Ht2 by auto. auto. }
  split; [exact CC|].
  (* the first product *)
  assert (HF2 : forall o z, o < n -> z < cols F ->
      psum n (fun i => pm (cm d o i) (sm f1 i z)) = F2 (sm F) p cy o z).
  { intros o z Ho Hz. rewrite (psum_single _ _ o); auto.
    - rewrite C9 by auto. rewrite Nat.eqb_refl. rewrite B5 by lia. reflexivity.
    - intros i Hi Hne. rewrite C9 by auto. destruct (Nat.eqb_spec o i); [lia|]. reflexivity.
    - apply pm_sorted. apply Sf1; lia. }
  assert (Hneed : need = false -> forall o, o < n -> dcoef (cy o) = kId).
  { intros E o Ho. apply dcoef_triv. rewrite C10 in E.
    destruct (nontriv (cy o)) eqn:En; auto.
    assert (existsb (fun y => nontriv (common_coef (coll t1 y))) (seq 0 n) = true); [|congruence].
    apply existsb_exists. exists o. split; [apply in_seq; lia|auto]. }
  assert (Hident : d_del s = 0 -> forall j o, j < d_i s -> o < n -> tr j o = if j =? o then kId else []).
  { intros E j o Hj Ho. assert (kept o = o).
    { apply (incr_id n kept); auto; intros.
      - assert (Hx : j0 < d_i s) by lia. apply (dc_k1 _ _ _ _ D) in Hx. lia.
      - apply (dc_k2 _ _ _ _ D); lia. }
    rewrite <- H at 1. unfold tr. rewrite (dc_q2 _ _ _ _ D); try lia. reflexivity. }
  assert (G1 : forall b, (b = true -> ok1 n (cols F) (sm F) p cy) ->
     exists f2, (if need then coef_op_mul b d f1 else Ok f1) = Ok f2 /\ wfo f2 /\ msrt f2 /\
       rows f2 = n /\ cols f2 = cols F /\ forall o z, o < n -> z < cols F -> sm f2 o z = F2 (sm F) p cy o z).
  { intros b Hok. destruct need.
    - destruct (coef_op_mul_ok b d f1 C5 B2) as [f2 [K1 [K2 [K3 [K4 K5]]]]]; try lia.
      + intros Hb x i y Hx Hi Hy Hnn. rewrite C9 in Hnn |- * by lia. destruct (x =? i) eqn:Exi; [|congruence].
        rewrite B5 by lia. apply Nat.eqb_eq in Exi. subst i. apply Hok; auto; lia.
      + assert (K6 : forall o z, o < n -> z < cols F -> sm f2 o z = F2 (sm F) p cy o z).
        { intros o z Ho Hz. rewrite K5 by lia. rewrite C7. apply HF2; auto. }
        exists f2. split; auto. split; [exact K2|]. split.
        * intros x y Hx Hy. rewrite K6 by lia. apply pm_sorted. apply SF; try lia. rewrite <- Hd. apply HP. lia.
        * split; [lia|]. split; [lia|]. auto.
    - exists f1. split; auto. split; [exact B2|]. split; [exact Sf1|]. split; [lia|]. split; [lia|].
      intros o z Ho Hz. unfold F2. rewrite Hneed by auto. rewrite pm_id. apply B5; lia. }
  (* unfold the function *)
  assert (Hunf : forall b, col_compress b T F =
     let! _ := assert_ b (n =? rows F) in
     let! (t1, p) := sort_cols b T in
     let! f1 := transpose_rows b F p in
     let! (t2, d, need) := for_loop 0 n (sep_body try_catch_col remove_col_coef) (t1, mat_new n n, false) in
     let! f2 := (if need then coef_op_mul b d f1 else Ok f1) in
     col_delin b t2 f2).
  { intros b. unfold col_compress. fold n. destruct (Nat.eqb_spec n 1); [lia|]. reflexivity. }
  rewrite Hunf. rewrite (proj2 (Nat.eqb_eq n (rows F)) Hd), assert_true. cbn [bind]. rewrite A1. cbn [bind]. rewrite B1. cbn [bind].
  unfold opmat, coefmat in C1 |- *. rewrite C1. cbn [bind].
  assert (Hdel : forall f2, wfo f2 -> msrt f2 -> rows f2 = n -> cols f2 = cols F ->
     (forall o z, o < n -> z < cols F -> sm f2 o z = F2 (sm F) p cy o z) ->
     (ok2 n (d_i s) (cols F) (sm F) p cy tr ->
      exists Fm, col_delin dbg t2 f2 = Ok (d_tgt s, Fm) /\ wfo Fm /\ msrt Fm /\ rows Fm = d_i s /\ cols Fm = cols F /\
        forall j z, j < d_i s -> z < cols F -> sm Fm j z = Fnew n (sm F) p cy tr j z) /\
     (forall r, dbg = true -> col_delin dbg t2 f2 = Ok r -> ok2 n (d_i s) (cols F) (sm F) p cy tr)).
  { intros f2 Wf2 Sf2 Rf2 Cf2 Hf2. unfold col_delin. rewrite C4, E1. cbn [bind]. rewrite E2. cbn [bind].
    rewrite (dc_tc _ _ _ _ D), C4. destruct (Nat.ltb_spec (rows (d_tr s)) n) as [Hlt|Hge].
    - split.
      + intros Hok. destruct (coef_op_mul_ok dbg (d_tr s) f2 (dc_tw _ _ _ _ D) Wf2) as [Fm [K1 [K2 [K3 [K4 K5]]]]].
        * rewrite (dc_tc _ _ _ _ D). lia.
        * intros _ x i y Hx Hi Hy Hnn. rewrite (dc_tc _ _ _ _ D) in Hi. rewrite Hf2 by lia.
          apply Hok; auto; lia.
        * rewrite K1. cbn [bind]. exists Fm. split; auto. split; [exact K2|].
          assert (K6 : forall j z, j < d_i s -> z < cols F -> sm Fm j z = Fnew n (sm F) p cy tr j z).
          { intros j z Hj Hz. rewrite K5 by lia. rewrite (dc_tc _ _ _ _ D), C4. unfold Fnew.
            apply psum_ext. intros o Ho. rewrite Hf2 by auto. reflexivity. }
          split; [|split; [lia|]; split; [lia|]; auto].
          intros x y Hx Hy. rewrite K6 by lia. apply psum_sorted. intros o Ho. apply pm_sorted.
          rewrite <- Hf2 by lia. apply Sf2; lia.
      + intros r Hdb Hr. subst dbg. destruct (coef_op_mul true (d_tr s) f2) as [q| |] eqn:Em; try discriminate Hr.
        intros j o z Hj Ho Hz Hnn. rewrite <- Hf2 by auto.
        assert (Hcr : cols (d_tr s) = rows f2) by (rewrite (dc_tc _ _ _ _ D); lia).
        pose proof (coef_op_mul_inv _ _ _ (dc_tw _ _ _ _ D) Wf2 Hcr Em) as Q.
        apply Q; auto; try lia.
    - assert (E0 : d_del s = 0) by lia. split.
      + intros _. exists f2. split; auto. split; [exact Wf2|]. split; [exact Sf2|]. split; [lia|]. split; [lia|].
        intros j z Hj Hz. unfold Fnew. rewrite (psum_single _ _ j); try lia.
        * rewrite Hident by (auto; lia). rewrite Nat.eqb_refl, pm_id. apply Hf2; lia.
        * intros o Ho Hne. rewrite Hident by auto. destruct (Nat.eqb_spec j o); [lia|]. reflexivity.
        * apply pm_sorted. rewrite <- Hf2 by lia. apply Sf2; lia.
      + intros r _ _ j o z Hj Ho Hz Hnn. rewrite Hident in * by auto.
        destruct (j =? o); [left; auto|congruence]. }
  split.
  - intros Hok1 Hok2. destruct (G1 dbg) as [f2 [K1 [K2 [K3 [K4 [K5 K6]]]]]]; auto.
    unfold opmat in K1 |- *. rewrite K1. cbn [bind]. destruct (Hdel f2) as [L1 _]; auto.
    destruct (L1 Hok2) as [Fm [L2 [L3 [L4 [L5 [L6 L7]]]]]]. rewrite L2.
    exists (d_tgt s), Fm. split; auto. split; [apply (dc_w _ _ _ _ D)|]. split; [exact L3|]. split.
    { intros x y Hx Hy. rewrite (dc_r _ _ _ _ D) in Hx. rewrite (dc_k3 _ _ _ _ D) by lia.
      apply S2; try lia. assert (Hy' : y < d_i s) by lia. apply (dc_k1 _ _ _ _ D) in Hy'. lia. }
    split; [exact L4|]. rewrite (dc_r _ _ _ _ D). repeat split; auto; lia.
  - intros r Hdb Hr. subst dbg.
    assert (Hok1 : ok1 n (cols F) (sm F) p cy).
    { intros o z Ho Hz. destruct need.
      - destruct (coef_op_mul true d f1) as [f2| |] eqn:Em; try discriminate Hr.
        assert (Hcr : cols d = rows f1) by lia.
        pose proof (coef_op_mul_inv _ _ _ C5 B2 Hcr Em) as Q.
        specialize (Q o o z). rewrite C9, Nat.eqb_refl, B5 in Q by lia. apply Q; try lia.
        fold (cy o). unfold dcoef. destruct (coef_eq (cy o) kNull) eqn:Ek; simpl; [discriminate|].
        intro Ex. change (cy o = []) in Ex. rewrite Ex in Ek. discriminate.
      - left. apply Hneed; auto. }
    split; auto. destruct (G1 true) as [f2 [K1 [K2 [K3 [K4 [K5 K6]]]]]]; auto.
    unfold opmat in K1, Hr. rewrite K1 in Hr. cbn [bind] in Hr. eapply Hdel; eauto.
Qed.

Lemma row_compress_spec : forall dbg T F, wfo T -> wfo F -> msrt T -> msrt F -> rows T = cols F ->
  1 <= cols T -> 2 <= rows T ->
  exists k T' p cy tr kept, ccomp (cols T) (rows T) (fun x y => sm T y x) k T' p cy tr kept /\
   (ok1 (rows T) (rows F) (fun y z => sm F z y) p cy -> ok2 (rows T) k (rows F) (fun y z => sm F z y) p cy tr ->
      exists Tm Fm, row_compress dbg T F = Ok (Tm, Fm) /\ wfo Tm /\ wfo Fm /\ msrt Tm /\ msrt Fm /\
        cols Tm = cols T /\ rows Tm = k /\ cols Fm = k /\ rows Fm = rows F /\
        (forall x j, x < cols T -> j < k -> sm Tm j x = T' x j) /\
        (forall j z, j < k -> z < rows F -> sm Fm z j = Fnew (rows T) (fun y z => sm F z y) p cy tr j z)) /\
   (forall r, dbg = true -> row_compress dbg T F = Ok r ->
      ok1 (rows T) (rows F) (fun y z => sm F z y) p cy /\ ok2 (rows T) k (rows F) (fun y z => sm F z y) p cy tr).
Proof.
  intros dbg T F WT WF ST SF Hd HR Hn. set (n := rows T) in *. set (Ft := fun y z => sm F z y) in *.
  destruct (sort_rows_spec dbg T WT) as [t1 [p [A1 [A2 [A3 [A4 [A5 A6]]]]]]].
  destruct (transpose_cols_sm dbg F p WF) as [f1 [B1 [B2 [B3 [B4 B5]]]]]; [rewrite <- Hd; auto|].
  destruct (sep_rows_spec t1 A3) as [t2 [d [need [C1 [C2 [C3 [C4 [C5 [C6 [C7 [C8 [C9 C10]]]]]]]]]]]].
  rewrite A4 in *. fold n in C1, C3, C6, C7, C8, C9, C10.
  assert (HP : forall y, y < n -> pget p y < n) by (intros y Hy; destruct (is_perm_nth _ _ _ A2 Hy) as [v [Hv1 Hv2]]; unfold pget; rewrite (nth_error_nth _ _ _ Hv1); exact Hv2).
  set (cy := fun y => common_coef (rowl t1 y)) in *.
  assert (Hcy : forall y, y < n -> cy y = common_coef (map (fun x => sm T (pget p y) x) (seq 0 (cols T)))).
  { intros y Hy. unfold cy, rowl. rewrite A5. f_equal. apply map_ext_seq. intros x Hx. apply A6; fold n; lia. }
  assert (Ht2 : forall x y, x < cols T -> y < n -> sm t2 y x = sepd (cy y) (sm T (pget p y) x)).
  { intros x y Hx Hy. rewrite C8 by lia. rewrite A6 by auto. reflexivity. }
  assert (S2 : msrt t2).
  { intros y x Hy Hx. rewrite Ht2 by lia. apply sepd_sorted. apply ST; fold n; try lia. apply HP. lia. }
  assert (Sf1 : msrt f1).
  { intros y x Hy Hx. rewrite B5 by lia. apply SF; try lia. rewrite <- Hd. apply HP. lia. }
  destruct (row_delin_loop dbg t2 C2 S2) as [tr0 [s [kept [E1 [E2 D]]]]]; try lia.
  set (tr := fun j o => cm (d_tr s) o j).
  exists (d_i s), (fun x y => sm (d_tgt s) y x), p, cy, tr, kept.
  pose proof (dr_o _ _ _ _ D) as Eo. pose proof (dr_c _ _ _ _ D) as Ec. pose proof (dr_tr _ _ _ _ D) as Et.
  pose proof (dr_i _ _ _ _ D) as Ei. rewrite C3 in *.
  assert (CC : ccomp (cols T) n (fun x y => sm T y x) (d_i s) (fun x y => sm (d_tgt s) y x) p cy tr kept).
  { constructor; auto.
    - split; auto. lia.
    - intros j Hj. apply (dr_k1 _ _ _ _ D) in Hj. lia.
    - apply (dr_k2 _ _ _ _ D).
    - intros x j Hx Hj. rewrite (dr_k3 _ _ _ _ D) by (auto; lia). apply Ht2; auto.
      apply (dr_k1 _ _ _ _ D) in Hj. lia.
    - intros j j' Hj Hj'. apply (dr_q2 _ _ _ _ D); auto. lia.
    - intros o x Ho Hx. rewrite <- Ht2 by auto. apply (dr_q3 _ _ _ _ D); lia.
    - intros o j Ho Hj Htr. destruct (dr_q4 _ _ _ _ D o j) as [Q1 Q2]; auto; try lia.
      rewrite C4, A5 in *. split; auto. intros x Hx Hb. rewrite <- Ht2 by auto. auto. }
  split; [exact CC|].
  assert (HF2 : forall o z, o < n -> z < rows F ->
      psum n (fun i => pm (cm d i o) (sm f1 z i)) = F2 Ft p cy o z).
  { intros o z Ho Hz. rewrite (psum_single _ _ o); auto.
    - rewrite C9 by auto. rewrite Nat.eqb_refl. rewrite B5 by lia. reflexivity.
    - intros i Hi Hne. rewrite C9 by auto. destruct (Nat.eqb_spec i o); [lia|]. reflexivity.
    - apply pm_sorted. apply Sf1; lia. }
  assert (Hneed : need = false -> forall o, o < n -> dcoef (cy o) = kId).
  { intros E o Ho. apply dcoef_triv. rewrite C10 in E.
    destruct (nontriv (cy o)) eqn:En; auto.
    assert (existsb (fun y => nontriv (common_coef (rowl t1 y))) (seq 0 n) = true); [|congruence].
    apply existsb_exists. exists o. split; [apply in_seq; lia|auto]. }
  assert (Hident : d_del s = 0 -> forall j o, j < d_i s -> o < n -> tr j o = if j =? o then kId else []).
  { intros E j o Hj Ho. assert (kept o = o).
    { apply (incr_id n kept); auto; intros.
      - assert (Hx : j0 < d_i s) by lia. apply (dr_k1 _ _ _ _ D) in Hx. lia.
      - apply (dr_k2 _ _ _ _ D); lia. }
    rewrite <- H at 1. unfold tr. rewrite (dr_q2 _ _ _ _ D); try lia. reflexivity. }
  assert (G1 : forall b, (b = true -> ok1 n (rows F) Ft p cy) ->
     exists f2, (if need then op_coef_mul b f1 d else Ok f1) = Ok f2 /\ wfo f2 /\ msrt f2 /\
       cols f2 = n /\ rows f2 = rows F /\ forall o z, o < n -> z < rows F -> sm f2 z o = F2 Ft p cy o z).
  { intros b Hok. destruct need.
    - destruct (op_coef_mul_ok b f1 d B2 C5) as [f2 [K1 [K2 [K3 [K4 K5]]]]]; try lia.
      + intros Hb x i y Hx Hi Hy Hnn. rewrite C9 in Hnn |- * by lia. destruct (i =? y) eqn:Exi; [|congruence].
        rewrite B5 by lia. apply Nat.eqb_eq in Exi. subst y. apply (Hok Hb i x); auto; lia.
      + assert (K6 : forall o z, o < n -> z < rows F -> sm f2 z o = F2 Ft p cy o z).
        { intros o z Ho Hz. rewrite K5 by lia. rewrite B4, <- Hd. apply HF2; auto. }
        exists f2. split; auto. split; [exact K2|]. split.
        * intros y x Hy Hx. rewrite K6 by lia. apply pm_sorted. apply SF; try lia. rewrite <- Hd. apply HP. lia.
        * split; [lia|]. split; [lia|]. auto.
    - exists f1. split; auto. split; [exact B2|]. split; [exact Sf1|]. split; [lia|]. split; [lia|].
      intros o z Ho Hz. unfold F2. rewrite Hneed by auto. rewrite pm_id. apply B5; lia. }
  assert (Hunf : forall b, row_compress b T F =
     let! _ := assert_ b (n =? cols F) in
     let! (t1, p) := sort_rows b T in
     let! f1 := transpose_cols b F p in
     let! (t2, d, need) := for_loop 0 n (sep_body try_catch_row remove_row_coef) (t1, mat_new n n, false) in
     let! f2 := (if need then op_coef_mul b f1 d else Ok f1) in
     row_delin b t2 f2).
  { intros b. unfold row_compress. fold n. destruct (Nat.eqb_spec n 1); [lia|]. reflexivity. }
  rewrite Hunf. rewrite (proj2 (Nat.eqb_eq n (cols F)) Hd), assert_true. cbn [bind]. rewrite A1. cbn [bind]. rewrite B1. cbn [bind].
  unfold opmat, coefmat in C1 |- *. rewrite C1. cbn [bind].
  assert (Hdel : forall f2, wfo f2 -> msrt f2 -> cols f2 = n -> rows f2 = rows F ->
     (forall o z, o < n -> z < rows F -> sm f2 z o = F2 Ft p cy o z) ->
     (ok2 n (d_i s) (rows F) Ft p cy tr ->
      exists Fm, row_delin dbg t2 f2 = Ok (d_tgt s, Fm) /\ wfo Fm /\ msrt Fm /\ cols Fm = d_i s /\ rows Fm = rows F /\
        forall j z, j < d_i s -> z < rows F -> sm Fm z j = Fnew n Ft p cy tr j z) /\
     (forall r, dbg = true -> row_delin dbg t2 f2 = Ok r -> ok2 n (d_i s) (rows F) Ft p cy tr)).
  { intros f2 Wf2 Sf2 Rf2 Cf2 Hf2. unfold row_delin. rewrite C3, E1. cbn [bind]. rewrite E2. cbn [bind].
    rewrite (dr_tc _ _ _ _ D), C3. destruct (Nat.ltb_spec (cols (d_tr s)) n) as [Hlt|Hge].
    - split.
      + intros Hok. destruct (op_coef_mul_ok dbg f2 (d_tr s) Wf2 (dr_tw _ _ _ _ D)) as [Fm [K1 [K2 [K3 [K4 K5]]]]].
        * rewrite (dr_tc _ _ _ _ D). lia.
        * intros _ x i y Hx Hi Hy Hnn. rewrite Hf2 by lia. apply (Hok y i x); auto; lia.
        * rewrite K1. cbn [bind]. exists Fm. split; auto. split; [exact K2|].
          assert (K6 : forall j z, j < d_i s -> z < rows F -> sm Fm z j = Fnew n Ft p cy tr j z).
          { intros j z Hj Hz. rewrite K5 by lia. rewrite Rf2. unfold Fnew.
            apply psum_ext. intros o Ho. rewrite Hf2 by auto. reflexivity. }
          split; [|split; [lia|]; split; [lia|]; auto].
          intros y x Hy Hx. rewrite K6 by lia. apply psum_sorted. intros o Ho. apply pm_sorted.
          rewrite <- Hf2 by lia. apply Sf2; lia.
      + intros r Hdb Hr. subst dbg. destruct (op_coef_mul true f2 (d_tr s)) as [q| |] eqn:Em; try discriminate Hr.
        intros j o z Hj Ho Hz Hnn. rewrite <- Hf2 by auto.
        assert (Hcr : cols f2 = rows (d_tr s)) by (rewrite (dr_tc _ _ _ _ D); lia).
        pose proof (op_coef_mul_inv _ _ _ Wf2 (dr_tw _ _ _ _ D) Hcr Em) as Q.
        apply Q; auto; lia.
    - assert (E0 : d_del s = 0) by lia. split.
      + intros _. exists f2. split; auto. split; [exact Wf2|]. split; [exact Sf2|]. split; [lia|]. split; [lia|].
        intros j z Hj Hz. unfold Fnew. rewrite (psum_single _ _ j); try lia.
        * rewrite Hident by (auto; lia). rewrite Nat.eqb_refl, pm_id. apply Hf2; lia.
        * intros o Ho Hne. rewrite Hident by auto. destruct (Nat.eqb_spec j o); [lia|]. reflexivity.
        * apply pm_sorted. rewrite <- Hf2 by lia. apply Sf2; lia.
      + intros r _ _ j o z Hj Ho Hz Hnn. rewrite Hident in * by auto.
        destruct (j =? o); [left; auto|congruence]. }
  split.
  - intros Hok1 Hok2. destruct (G1 dbg) as [f2 [K1 [K2 [K3 [K4 [K5 K6]]]]]]; auto.
    unfold opmat in K1 |- *. rewrite K1. cbn [bind]. destruct (Hdel f2) as [L1 _]; auto.
    destruct (L1 Hok2) as [Fm [L2 [L3 [L4 [L5 [L6 L7]]]]]]. rewrite L2.
    exists (d_tgt s), Fm. split; auto. split; [apply (dr_w _ _ _ _ D)|]. split; [exact L3|]. split.
    { intros y x Hy Hx. rewrite (dr_r _ _ _ _ D) in Hx. rewrite (dr_k3 _ _ _ _ D) by lia.
      apply S2; try lia. assert (Hy' : y < d_i s) by lia. apply (dr_k1 _ _ _ _ D) in Hy'. lia. }
    split; [exact L4|]. rewrite (dr_r _ _ _ _ D). repeat split; auto; lia.
  - intros r Hdb Hr. subst dbg.
    assert (Hok1 : ok1 n (rows F) Ft p cy).
    { intros o z Ho Hz. destruct need.
      - destruct (op_coef_mul true f1 d) as [f2| |] eqn:Em; try discriminate Hr.
        assert (Hcr : cols f1 = rows d) by lia.
        pose proof (op_coef_mul_inv _ _ _ B2 C5 Hcr Em) as Q.
        specialize (Q z o o). rewrite C9, Nat.eqb_refl, B5 in Q by lia. apply Q; try lia.
        fold (cy o). unfold dcoef. destruct (coef_eq (cy o) kNull) eqn:Ek; simpl; [discriminate|].
        intro Ex. change (cy o = []) in Ex. rewrite Ex in Ek. discriminate.
      - left. apply Hneed; auto. }
    split; auto. destruct (G1 true) as [f2 [K1 [K2 [K3 [K4 [K5 K6]]]]]]; auto.
    unfold opmat in K1, Hr. rewrite K1 in Hr. cbn [bind] in Hr. eapply Hdel; eauto.
Qed.
