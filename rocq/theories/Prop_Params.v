(** Parameter files.  C43. *)
From Coq Require Import List Arith Lia Bool ZArith QArith String Ascii.
From Verif Require Import Params.
Import ListNotations.
Local Open Scope nat_scope.

(** ** Specification *)
(** the parameter object [ps] has no key [k]; it has [k] with value [v] (the last one written) *)
Definition missing (ps : json) (k : string) : Prop := forall l, ps = JObj l -> forall v, ~ In (k, v) l.
Definition given (ps : json) (k : string) (v : json) : Prop := exists l1 l2, ps = JObj (l1 ++ (k, v) :: l2) /\ forall v', ~ In (k, v') l2.
(** kinds of values *)
Definition number (v : json) : Prop := (exists z, v = JUns z) \/ (exists z, v = JInt z) \/ exists q, v = JFloat q.
Definition integer (v : json) (z : Z) : Prop := v = JUns z \/ v = JInt z.
Definition int_range (z : Z) : Prop := (-2147483648 <= z <= 2147483647)%Z.
Definition size_range (z : Z) : Prop := (0 <= z < 18446744073709551616)%Z.

(** ** Lemmas *)
Lemma last_none k l : last_of k l = None <-> forall v, ~ In (k, v) l.
Proof.
  induction l as [|[k' v'] l IH]; cbn; [split; auto|]. destruct (last_of k l) as [w|] eqn:E.
  - split; [discriminate|]. intros H. assert (X : Some w = None) by (apply IH; intros v I; apply (H v); auto). discriminate.
  - destruct (String.eqb_spec k k') as [<-|NE]; [split; [discriminate|intros H; exfalso; apply (H v'); auto]|]. split; auto. intros _ v [H|H]; [injection H as -> _; congruence|]. apply (proj1 IH eq_refl v H).
Qed.
Lemma last_some k v l1 l2 : (forall v', ~ In (k, v') l2) -> last_of k (l1 ++ (k, v) :: l2) = Some v.
Proof. intros H. induction l1 as [|[k' v'] l1 IH]; cbn; [|rewrite IH; auto]. rewrite (proj2 (last_none k l2) H), String.eqb_refl. auto. Qed.
Lemma find_missing ps k : missing ps k -> jfind ps k = None.
Proof. intros H. destruct ps; auto. apply last_none. apply (H l eq_refl). Qed.
Lemma find_given ps k v : given ps k v -> jfind ps k = Some v.
Proof. intros (l1 & l2 & -> & H). apply last_some. auto. Qed.
Lemma get_all_ok {A B} (f : B -> json) (g : json -> conv A) (h : B -> A) l : (forall x, In x l -> g (f x) = Got (h x)) -> get_all g (map f l) = Got (map h l).
Proof. induction l as [|x l IH]; intros H; cbn; auto. rewrite H by (cbn; auto). rewrite IH; auto. intros. apply H. cbn. auto. Qed.
Lemma get_all_app {A} (g : json -> conv A) l1 v l2 r : get_all g l1 = Got r -> g v = Throws -> get_all g (l1 ++ v :: l2) = Throws.
Proof. revert r. induction l1 as [|x l1 IH]; intros r H1 H2; cbn in *; [rewrite H2; auto|]. destruct (g x); try discriminate. destruct (get_all g l1) as [r'| |]; try discriminate. rewrite (IH r'); auto. Qed.
Lemma wrap32_id z : int_range z -> wrap32 z = z.
Proof. intros H. unfold int_range in H. unfold wrap32. rewrite Z.mod_small; lia. Qed.
Lemma wrap64_id z : size_range z -> wrap64 z = z.
Proof. intros H. unfold wrap64. apply Z.mod_small. auto. Qed.
Lemma trunc_int z : trunc (inject_Z z) = z.
Proof. unfold trunc. cbn. apply Z.quot_1_r. Qed.

Section Props.
Variable to_double : Z -> Q.
(** ** C43 *)
(** the file itself *)
Theorem C43_constructor : (construct None = Exits) /\ (forall raw, missing raw "CaseParams" -> construct (Some (Some raw)) = Exits) /\ (forall raw ps, given raw "CaseParams" ps -> construct (Some (Some raw)) = Returns ps) /\ construct (Some None) = Uncaught.
Proof. repeat split; cbn; intros. - rewrite (find_missing _ _ H); auto. - rewrite (find_given _ _ _ H); auto. Qed.
(** missing: every Parse ends the program, every ParseOr gives the default, every TryParse answers no and keeps the variable *)
Definition ends_program {A} (o : outcome A) : Prop := o = Exits.
Theorem C43_missing ps k : missing ps k ->
  ends_program (parse_int ps k) /\ ends_program (parse_double to_double ps k) /\ ends_program (parse_char ps k) /\ ends_program (parse_str ps k) /\ ends_program (parse_bool ps k) /\
  ends_program (parse_int_vec ps k) /\ ends_program (parse_size_vec ps k) /\ ends_program (parse_double_vec to_double ps k).
Proof. intros H. apply find_missing in H. unfold ends_program, parse_int, parse_double, parse_char, parse_str, parse_bool, parse_int_vec, parse_size_vec, parse_double_vec, strict. rewrite H. repeat split; auto. Qed.
Theorem C43_default A (parse : json -> string -> outcome A) ps k d : (missing ps k -> parse_or parse ps k d = Returns d) /\ (forall v, given ps k v -> parse_or parse ps k d = parse ps k).
Proof. split; intros; unfold parse_or, has; [rewrite (find_missing _ _ H)|rewrite (find_given _ _ _ H)]; auto. Qed.
(** a value of another kind ends the program *)
Theorem C43_wrong_kind ps k v : given ps k v ->
  ((forall b, v <> JBool b) -> ends_program (parse_bool ps k)) /\
  ((forall s, v <> JStr s) -> ends_program (parse_str ps k) /\ ends_program (parse_char ps k)) /\
  (~ number v -> ends_program (parse_double to_double ps k)) /\
  (~ number v -> (forall b, v <> JBool b) -> ends_program (parse_int ps k)) /\
  ((forall l, v <> JArr l) -> ends_program (parse_int_vec ps k) /\ ends_program (parse_size_vec ps k) /\ ends_program (parse_double_vec to_double ps k)).
Proof.
  intros H. apply find_given in H. unfold ends_program, parse_int, parse_double, parse_char, parse_str, parse_bool, parse_int_vec, parse_size_vec, parse_double_vec, strict. rewrite H. unfold number.
  destruct v; cbn; repeat split; auto; intros; exfalso; eauto 6; congruence.
Qed.
(** an element of another kind after good ones *)
Theorem C43_wrong_element ps k l1 v l2 : given ps k (JArr (l1 ++ v :: l2)) -> ~ number v ->
  (Forall number l1 -> ends_program (parse_double_vec to_double ps k)) /\
  (Forall (fun v => exists z, integer v z) l1 -> ends_program (parse_size_vec ps k)) /\
  (Forall (fun v => exists z, integer v z) l1 -> (forall b, v <> JBool b) -> ends_program (parse_int_vec ps k)).
Proof.
  intros H NV. apply find_given in H. unfold ends_program, parse_int_vec, parse_size_vec, parse_double_vec, strict. rewrite H. cbn [get_vec].
  assert (X : forall A (g : json -> conv A) (P : json -> Prop) l, (forall v, P v -> exists a, g v = Got a) -> Forall P l -> exists r, get_all g l = Got r).
  { clear. intros A g P l HP F. induction F as [|x l' Hx _ [r IH]]; [exists []; auto|]. cbn. destruct (HP x Hx) as [a ->]. rewrite IH. eauto. }
  assert (NN : forall z, v <> JUns z /\ v <> JInt z) by (intros z; split; intros ->; apply NV; unfold number; eauto). assert (NF : forall q, v <> JFloat q) by (intros z ->; apply NV; unfold number; eauto).
  repeat split; intros.
  - destruct (X _ (get_double to_double) number l1) as [r E]; auto; [intros w [[z ->]|[[z ->]|[q ->]]]; cbn; eauto|]. rewrite (get_all_app _ l1 v l2 r); auto. destruct v; auto; exfalso; first [eapply (proj1 (NN _)); reflexivity|eapply (proj2 (NN _)); reflexivity|eapply NF; reflexivity|eapply H1; reflexivity].
  - destruct (X _ get_size (fun v => exists z, integer v z) l1) as [r E]; auto; [intros w [z [->| ->]]; cbn; eauto|]. rewrite (get_all_app _ l1 v l2 r); auto. destruct v; auto; exfalso; first [eapply (proj1 (NN _)); reflexivity|eapply (proj2 (NN _)); reflexivity|eapply NF; reflexivity|eapply H1; reflexivity].
  - destruct (X _ get_int (fun v => exists z, integer v z) l1) as [r E]; auto; [intros w [z [->| ->]]; cbn; eauto|]. rewrite (get_all_app _ l1 v l2 r); auto. destruct v; auto; exfalso; first [eapply (proj1 (NN _)); reflexivity|eapply (proj2 (NN _)); reflexivity|eapply NF; reflexivity|eapply H1; reflexivity].
Qed.
(** a value of the right kind is the answer *)
Theorem C43_right ps k v : given ps k v ->
  (forall z, integer v z -> int_range z -> parse_int ps k = Returns z) /\
  (forall z, integer v z -> parse_double to_double ps k = Returns (to_double z)) /\ (forall q, v = JFloat q -> parse_double to_double ps k = Returns q) /\
  (forall s, v = JStr s -> parse_str ps k = Returns s) /\ (forall c s, v = JStr (String c s) -> parse_char ps k = Returns c) /\ (forall b, v = JBool b -> parse_bool ps k = Returns b) /\
  (forall zs, Forall int_range zs -> v = JArr (map (fun z => if (z <? 0)%Z then JInt z else JUns z) zs) -> parse_int_vec ps k = Returns zs) /\
  (forall zs, v = JArr (map JUns zs) -> parse_size_vec ps k = Returns zs) /\
  (forall qs, v = JArr (map JFloat qs) -> parse_double_vec to_double ps k = Returns qs).
Proof.
  intros H. apply find_given in H. unfold parse_int, parse_double, parse_char, parse_str, parse_bool, parse_int_vec, parse_size_vec, parse_double_vec, strict. rewrite H. repeat split.
  - intros z [->| ->] HR; cbn; rewrite wrap32_id; auto.
  - intros z [->| ->]; auto.
  - intros q ->; auto.
  - intros s ->; auto.
  - intros c s ->; auto.
  - intros b ->; auto.
  - intros zs HR ->. cbn [get_vec]. rewrite (get_all_ok _ _ (fun z => z)), map_id; auto. intros z Hz. rewrite Forall_forall in HR. destruct (z <? 0)%Z; cbn; rewrite wrap32_id; auto.
  - intros zs ->. cbn [get_vec]. rewrite (get_all_ok _ _ (fun z => z)), map_id; auto.
  - intros zs ->. cbn [get_vec]. rewrite (get_all_ok _ _ (fun z => z)), map_id; auto.
Qed.
(** integers are not checked: what every number becomes.  [cut q z]: z is q without its fraction *)
Definition cut (q : Q) (z : Z) : Prop := ((0 <= q -> inject_Z z <= q /\ q < inject_Z (z + 1)) /\ (q <= 0 -> inject_Z (z - 1) < q /\ q <= inject_Z z))%Q.
Definition sized (v : json) (z : Z) : Prop := v = JUns z \/ (exists y, v = JInt y /\ size_range z /\ (18446744073709551616 | z - y)%Z) \/ exists q, v = JFloat q /\ cut q z /\ size_range z.
Lemma cut_trunc q z : cut q z -> trunc q = z.
Proof.
  destruct q as [n d]. unfold cut, trunc, Qle, Qlt, inject_Z; cbn [Qnum Qden]. intros [HP HN].
  destruct (Z_le_gt_dec 0 n) as [P|P].
  - rewrite Z.quot_div_nonneg by lia. symmetry. apply Z.div_unique with (r := (n - Z.pos d * z)%Z); lia.
  - replace n with (- (- n))%Z by lia. rewrite Z.quot_opp_l, Z.quot_div_nonneg by lia.
    assert (E : (- z = - n / Z.pos d)%Z) by (apply Z.div_unique with (r := (- n - Z.pos d * - z)%Z); lia). lia.
Qed.
Lemma mod_range m y z : (0 <= z < m)%Z -> (m | z - y)%Z -> (y mod m = z)%Z.
Proof. intros R [k E]. symmetry. apply Z.mod_unique with (q := (- k)%Z); lia. Qed.
Lemma sized_get v z : sized v z -> get_size v = Got z.
Proof.
  intros [->|[(y & -> & HR & HD)|(q & -> & HC & HR)]]; cbn; auto.
  - unfold wrap64. f_equal. apply mod_range; auto.
  - rewrite (cut_trunc _ _ HC). unfold size_range in HR. destruct (Z.leb_spec 0 z), (Z.leb_spec z 18446744073709551615); cbn; auto; lia.
Qed.
Theorem C43_numbers ps k :
  (forall v z z', given ps k v -> integer v z -> int_range z' -> (4294967296 | z' - z)%Z -> parse_int ps k = Returns z') /\
  (forall q z, given ps k (JFloat q) -> cut q z -> (int_range z -> parse_int ps k = Returns z) /\ (~ int_range z -> parse_int ps k = Undefined)) /\
  (forall l zs, given ps k (JArr l) -> Forall2 sized l zs -> parse_size_vec ps k = Returns zs) /\
  (forall l1 zs q z l2, given ps k (JArr (l1 ++ JFloat q :: l2)) -> Forall2 sized l1 zs -> cut q z -> ~ size_range z -> parse_size_vec ps k = Undefined).
Proof.
  unfold parse_int, parse_size_vec, strict, int_range. repeat split.
  - intros v z z' H HI HR HD. rewrite (find_given _ _ _ H). assert (E : wrap32 z = z').
    { unfold wrap32. rewrite (mod_range 4294967296 (z + 2147483648) (z' + 2147483648)); [lia|lia|]. replace (z' + 2147483648 - (z + 2147483648))%Z with (z' - z)%Z by lia. auto. }
    destruct HI as [->| ->]; cbn; rewrite E; auto.
  - intros HR. rewrite (find_given _ _ _ H). cbn. rewrite (cut_trunc _ _ H0). destruct (Z.leb_spec (-2147483648) z), (Z.leb_spec z 2147483647); cbn; auto; lia.
  - intros HR. rewrite (find_given _ _ _ H). cbn. rewrite (cut_trunc _ _ H0). destruct (Z.leb_spec (-2147483648) z), (Z.leb_spec z 2147483647); cbn; auto; lia.
  - intros l zs H F. rewrite (find_given _ _ _ H). cbn [get_vec]. assert (E : get_all get_size l = Got zs) by (clear H; induction F as [|v z l zs Hv _ IH]; cbn; auto; rewrite (sized_get _ _ Hv), IH; auto). rewrite E. auto.
  - intros l1 zs q z l2 H F HC HR. rewrite (find_given _ _ _ H). cbn [get_vec].
    assert (E : get_all get_size (l1 ++ JFloat q :: l2) = Undef).
    { clear H. induction F as [|v y l ys Hv _ IH]; cbn [app get_all].
      - cbn. rewrite (cut_trunc _ _ HC). unfold size_range in HR. destruct (Z.leb_spec 0 z), (Z.leb_spec z 18446744073709551615); cbn; auto; lia.
      - rewrite (sized_get _ _ Hv), IH. auto. }
    rewrite E. auto.
Qed.
(** the Try variants: what they answer, and that the variable is only written together with the answer yes *)
Theorem C43_try A (get : json -> conv A) ps k out :
  (missing ps k -> try_strict get ps k out = Returns (false, out)) /\
  (forall v, given ps k v -> get v = Throws -> strict get ps k = Exits /\ try_strict get ps k out = Returns (false, out)) /\
  (forall a, strict get ps k = Returns a -> try_strict get ps k out = Returns (true, a)) /\
  (forall o, try_strict get ps k out = Returns (false, o) -> o = out /\ strict get ps k = Exits) /\
  (forall a, try_strict get ps k out = Returns (true, a) -> strict get ps k = Returns a) /\
  (try_strict get ps k out <> Exits).
Proof.
  unfold strict, try_strict. repeat split.
  - intros H. rewrite (find_missing _ _ H). auto.
  - apply find_given in H. rewrite H, H0. auto.
  - apply find_given in H. rewrite H, H0. auto.
  - intros a. destruct (jfind ps k) as [v|]; try discriminate. destruct (get v); try discriminate. intros E. injection E as ->. auto.
  - revert H. destruct (jfind ps k) as [v|]; [destruct (get v)|]; intros E; try discriminate; injection E as <-; auto.
  - revert H. destruct (jfind ps k) as [v|]; [destruct (get v)|]; intros E; try discriminate; injection E as <-; auto.
  - intros a. destruct (jfind ps k) as [v|]; [destruct (get v)|]; intros E; try discriminate; injection E as <-; auto.
  - destruct (jfind ps k) as [v|]; [destruct (get v)|]; discriminate.
Qed.
Theorem C43_try_char ps k out : (forall o, try_char ps k out = Returns (false, o) -> o = out /\ parse_char ps k = Exits) /\ (forall a, try_char ps k out = Returns (true, a) <-> parse_char ps k = Returns a).
Proof.
  unfold try_char, parse_char, try_strict, strict. destruct (jfind ps k) as [v|]; [destruct (get_str v)|]; (split; [intros o E; try discriminate; injection E as <-; auto|intros b; split; intros E; try discriminate; injection E as <-; auto]).
Qed.
(** TryParseSizeTVec takes exactly lists of numbers that are not negative *)
Theorem C43_try_sizes ps k v out : given ps k v ->
  (exists l zs, v = JArr l /\ Forall2 (fun v z => v = JUns z \/ v = JInt z /\ (0 <= z)%Z) l zs /\ try_size_vec ps k out = Returns (true, zs)) \/
  ((forall l zs, v = JArr l -> ~ Forall2 (fun v z => v = JUns z \/ v = JInt z /\ (0 <= z)%Z) l zs) /\ try_size_vec ps k out = Returns (false, out)).
Proof.
  intros H. apply find_given in H. unfold try_size_vec. rewrite H. destruct v; try (right; split; [intros; discriminate|auto]; fail).
  assert (X : forall acc, (exists zs, Forall2 (fun v z => v = JUns z \/ v = JInt z /\ (0 <= z)%Z) l zs /\ try_sizes l acc = Some (acc ++ zs)) \/
    ((forall zs, ~ Forall2 (fun v z => v = JUns z \/ v = JInt z /\ (0 <= z)%Z) l zs) /\ try_sizes l acc = None)).
  { clear H. induction l as [|x l IH]; intros acc; [left; exists []; split; auto; rewrite app_nil_r; auto|].
    destruct x as [|b|z|z|q|s|l'|l']; cbn [try_sizes]; try (right; split; [intros zs F; inversion F as [|? ? ? ? [E|[E _]]]; discriminate|auto]; fail).
    - destruct (IH (acc ++ [z])) as [(zs & F & E)|[F E]]; [left; exists (z :: zs); split; auto; rewrite E, <- app_assoc; auto|right]. split; auto. intros zs G. inversion G; subst. eapply F; eauto.
    - destruct (Z.ltb_spec z 0); [right; split; auto; intros zs F; inversion F as [|? ? ? ? [E|[E ?]]]; subst; [discriminate|injection E as <-; lia]|].
      destruct (IH (acc ++ [z])) as [(zs & F & E)|[F E]]; [left; exists (z :: zs); split; [constructor; auto|]; rewrite E, <- app_assoc; auto|right]. split; auto. intros zs G. inversion G; subst. eapply F; eauto. }
  destruct (X []) as [(zs & F & E)|[F E]]; rewrite E; [left; exists l, zs; auto|right; split; auto]. intros l' zs E'. injection E' as <-. auto.
Qed.
End Props.
Print Assumptions C43_constructor.
Print Assumptions C43_missing.
Print Assumptions C43_default.
Print Assumptions C43_wrong_kind.
Print Assumptions C43_wrong_element.
Print Assumptions C43_right.
Print Assumptions C43_numbers.
Print Assumptions C43_try.
Print Assumptions C43_try_char.
Print Assumptions C43_try_sizes.

(** Finding: "integer" is not checked.  A fraction is cut, a boolean becomes 0 or 1, an integer outside the range of int wraps
    around (2^32 + 5 becomes 5), a negative size becomes huge, and a float outside the range is undefined behaviour *)
Definition sample : json := JObj [("N", JFloat (37 # 10)); ("B", JBool true); ("L", JUns 4294967301); ("D", JArr [JInt (-1); JFloat (3 # 2)]); ("H", JFloat (inject_Z 1000000000000000000000)); ("N", JFloat (47 # 10)); ("S", JStr "abc"); ("E", JStr ""); ("V", JArr [JUns 3; JUns 4])]%string.
Theorem C43_int_not_strict_refuted : parse_int sample "N" = Returns 4%Z /\ parse_int sample "B" = Returns 1%Z /\ parse_int sample "L" = Returns 5%Z /\ parse_size_vec sample "D" = Returns [18446744073709551615; 1]%Z /\ parse_int sample "H" = Undefined.
Proof. vm_compute. auto. Qed.
Print Assumptions C43_int_not_strict_refuted.
Theorem C43_numbers_case : given sample "D" (JArr [JInt (-1); JFloat (3 # 2)]) /\ Forall2 sized [JInt (-1); JFloat (3 # 2)] [18446744073709551615; 1]%Z /\ cut (47 # 10) 4 /\ cut (-47 # 10) (-4) /\ ~ int_range 1000000000000000000000.
Proof.
  repeat split; try (unfold Qle, Qlt; cbn; lia); try (intros; unfold Qle, Qlt in *; cbn in *; lia).
  - exists [("N"%string, JFloat (37 # 10)); ("B"%string, JBool true); ("L"%string, JUns 4294967301)]. eexists. split; [reflexivity|]. intros v' I. cbn [In] in I. repeat (destruct I as [I|I]; [discriminate|]). destruct I.
  - constructor; [right; left; exists (-1)%Z|constructor; [right; right; exists (3 # 2)|constructor]]; repeat split; unfold size_range; try lia; try (exists 1%Z; lia); try (unfold Qle, Qlt; cbn; lia); intros; unfold Qle, Qlt in *; cbn in *; lia.
  - unfold int_range. lia.
Qed.
Example C43_example : given sample "V" (JArr [JUns 3; JUns 4]) /\ missing sample "Sweeps" /\ parse_size_vec sample "V" = Returns [3; 4]%Z /\ parse_char sample "S" = Returns "a"%char /\ parse_char sample "E" = Returns Ascii.zero /\
  try_size_vec sample "D" [7%Z] = Returns (false, [7%Z]) /\ parse_or parse_int sample "Sweeps" 12%Z = Returns 12%Z.
Proof.
  split; [eexists _, []; split; [change sample with (JObj ([("N", JFloat (37 # 10)); ("B", JBool true); ("L", JUns 4294967301); ("D", JArr [JInt (-1); JFloat (3 # 2)]); ("H", JFloat (inject_Z 1000000000000000000000)); ("N", JFloat (47 # 10)); ("S", JStr "abc"); ("E", JStr "")]%string ++ [("V"%string, JArr [JUns 3; JUns 4])])); reflexivity|auto]|].
  split; [|repeat split]. intros l E v I. injection E as <-. cbn [In] in I. repeat (destruct I as [I|I]; [discriminate|]). destruct I.
Qed.
