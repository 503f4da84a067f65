(** * Printing.  Proof library. *)
From Coq Require Import Ascii String DecimalString DecimalZ Decimal.
From Verif Require Import PyBase Dict FreeModule Symmetric Simplicial Cubical Surjection BarrattEccles Spec Printing SpecPrint.
Import ListNotations.

(** ** decimal digits *)
Definition numeric (c : ascii) : Prop := In c (lit "0123456789-").
Definition digit (c : ascii) : Prop := In c (lit "0123456789").
Lemma lit_app a b : lit (a ++ b) = lit a ++ lit b.
Proof. induction a as [|c a IH]; cbn; [reflexivity|]. f_equal. exact IH. Qed.
Lemma lit_inj a b : lit a = lit b -> a = b.
Proof. intros E. rewrite <- (string_of_list_ascii_of_string a), <- (string_of_list_ascii_of_string b). unfold lit in E. now rewrite E. Qed.
Lemma uint_digits d c : In c (lit (NilEmpty.string_of_uint d)) -> digit c.
Proof. unfold digit. induction d; cbn; intros H; try contradiction; (destruct H as [<-|H]; [repeat (first [left; reflexivity|right])|now apply IHd]). Qed.
Lemma uint_digits0 d c : In c (lit (NilZero.string_of_uint d)) -> digit c.
Proof. destruct d; try apply uint_digits. cbn. intros [<-|[]]. cbn. auto. Qed.
Lemma str_int_numeric z c : In c (str_int z) -> numeric c.
Proof.
  unfold str_int, numeric. intros H. assert (D : digit c \/ c = "-"%char).
  { destruct (Z.to_int z); cbn in H; [left; eapply uint_digits0; eauto|]. destruct H as [<-|H]; [now right|left; eapply uint_digits0; eauto]. }
  destruct D as [D | ->]; [|cbn; auto 20]. unfold digit in D. cbn in *. tauto.
Qed.
Lemma str_int_digit z c : 0 <= z -> In c (str_int z) -> digit c.
Proof.
  intros Hz. unfold str_int. destruct z as [|p|p]; [| |lia]; cbn [Z.to_int NilZero.string_of_int]; apply uint_digits0.
Qed.
Lemma str_int_inj a b : str_int a = str_int b -> a = b.
Proof.
  intros E. apply lit_inj in E. assert (E' := f_equal NilZero.int_of_string E).
  rewrite !NilZero.isi in E'.
  - injection E' as E'. apply (f_equal Z.of_int) in E'. now rewrite !DecimalZ.of_to in E'.
  - destruct b; cbn; try discriminate; intros [= X]; apply DecimalPos.Unsigned.to_uint_nonnil in X; contradiction.
  - destruct b; cbn; try discriminate; intros [= X]; apply DecimalPos.Unsigned.to_uint_nonnil in X; contradiction.
  - destruct a; cbn; try discriminate; intros [= X]; apply DecimalPos.Unsigned.to_uint_nonnil in X; contradiction.
  - destruct a; cbn; try discriminate; intros [= X]; apply DecimalPos.Unsigned.to_uint_nonnil in X; contradiction.
Qed.
Lemma str_int_ne z : str_int z <> [].
Proof.
  unfold str_int. destruct (Z.to_int z) as [d|d]; cbn; [|discriminate]. destruct d; cbn; discriminate.
Qed.

(** ** [str_dict] prints [shown] *)
Lemma coef_abs v : v < -1 \/ 1 < v -> shown_coef v = str_int (Z.abs v).
Proof. intros H. unfold shown_coef. destruct (Z.eqb_spec (Z.abs v) 1); [lia|reflexivity]. Qed.
Definition raw {K} (key : K -> pystr) (kv : K * Z) : pystr := (if snd kv <? 0 then lit "- " else lit "+ ") ++ shown_coef (snd kv) ++ key (fst kv) ++ lit " ".
Lemma step_raw {K} (key : K -> pystr) a kv : snd kv <> 0 -> str_step key a kv = a ++ raw key kv.
Proof.
  destruct kv as [k v]. cbn [snd]. intros Hv. unfold str_step, raw. cbn [fst snd].
  destruct (Z.ltb_spec v (-1)); [|destruct (Z.eqb_spec v (-1)) as [->|]; [reflexivity|destruct (Z.eqb_spec v 1) as [->|]; [reflexivity|destruct (Z.ltb_spec 1 v); [|lia]]]].
  - destruct (Z.ltb_spec v 0); [|lia]. rewrite coef_abs by lia. reflexivity.
  - destruct (Z.ltb_spec v 0); [lia|]. rewrite coef_abs by lia. replace (Z.abs v) with v by lia. reflexivity.
Qed.
Lemma fold_raw {K} (key : K -> pystr) d : forall a, (forall k v, In (k, v) d -> v <> 0) -> fold_left (str_step key) d a = a ++ concat (map (raw key) d).
Proof.
  induction d as [|[k v] d IH]; intros a H; cbn [fold_left map concat]; [now rewrite app_nil_r|]. rewrite step_raw by (apply (H k v); now left). rewrite IH by (intros k' v' Hin; apply (H k'); now right). now rewrite app_assoc.
Qed.
Lemma raw_next {K} (key : K -> pystr) d : lit " " ++ concat (map (raw key) d) = concat (map (shown_next key) d) ++ lit " ".
Proof.
  induction d as [|[k v] d IH]; [reflexivity|]. cbn [map concat]. rewrite <- app_assoc, <- IH. unfold raw, shown_next. cbn [fst snd].
  destruct (v <? 0); cbn [lit list_ascii_of_string]; rewrite <- ?app_assoc; reflexivity.
Qed.
Lemma removelast_snoc (u : pystr) c : removelast (u ++ [c]) = u.
Proof. rewrite removelast_app by discriminate. cbn. now rewrite app_nil_r. Qed.
Lemma str_dict_shown {K} (key : K -> pystr) d : (forall k v, In (k, v) d -> v <> 0) -> str_dict key d = Ok (shown key d).
Proof.
  intros H. destruct d as [|[k v] d]; [reflexivity|]. unfold str_dict. rewrite fold_raw by exact H. cbn [app map concat].
  assert (E : raw key (k, v) ++ concat (map (raw key) d) = (if v <? 0 then lit "- " else lit "+ ") ++ (shown_coef v ++ key k ++ concat (map (shown_next key) d)) ++ lit " ").
  { unfold raw at 1. cbn [fst snd]. rewrite <- !app_assoc. rewrite (raw_next key d). reflexivity. }
  rewrite E. unfold shown, shown_first. cbn [fst snd]. destruct (v <? 0).
  - cbn [lit list_ascii_of_string app]. change ((Ascii.eqb "-" "+")) with false. cbn iota. rewrite <- (removelast_snoc ("-"%char :: " "%char :: (shown_coef v ++ key k) ++ concat (map (shown_next key) d)) " "%char).
    cbn [app]. rewrite <- !app_assoc. reflexivity.
  - cbn [lit list_ascii_of_string app]. change ((Ascii.eqb "+" "+")) with true. cbn iota. cbn [skipn]. rewrite removelast_snoc. rewrite <- app_assoc. reflexivity.
Qed.

(** ** [replace] *)
Definition rep (old new : string) (s : pystr) : pystr := replace old new s.
Section Rep.
Variables (h : ascii) (o new : string).
Notation old := (String h o).
Notation R := (replace old new).
Lemma R_nil : R [] = []. Proof. reflexivity. Qed.
Lemma R_miss c s : prefixb (lit old) (c :: s) = false -> R (c :: s) = c :: R s.
Proof. intros E. unfold replace. cbn [replace_from]. now rewrite E. Qed.
Lemma R_skip c s : c <> h -> R (c :: s) = c :: R s.
Proof. intros N. apply R_miss. cbn. destruct (Ascii.eqb_spec h c); [congruence|reflexivity]. Qed.
Lemma R_free u s : ~ In h u -> R (u ++ s) = u ++ R s.
Proof.
  induction u as [|c u IH]; intros N; [reflexivity|]. cbn [app]. rewrite R_skip by (intros ->; apply N; now left). rewrite IH; [reflexivity|]. intros X. apply N. now right.
Qed.
Lemma prefixb_app p s : prefixb p (p ++ s) = true.
Proof. induction p as [|c p IH]; cbn; [reflexivity|]. now rewrite Ascii.eqb_refl. Qed.
Lemma skip_all n : forall u s, length u = n -> replace_from (lit old) (lit new) n (u ++ s) = R s.
Proof.
  induction n as [|n IH]; intros u s L; [destruct u; [reflexivity|discriminate]|]. destruct u as [|c u]; [discriminate|]. cbn [app replace_from]. apply IH. cbn in L. lia.
Qed.
Lemma R_hit s : R (lit old ++ s) = lit new ++ R s.
Proof.
  unfold replace at 1. cbn [lit list_ascii_of_string app replace_from]. pose proof (prefixb_app (lit old) s) as E. cbn [lit list_ascii_of_string app] in E. rewrite E. f_equal.
  cbn [length]. apply skip_all. fold (lit o). lia.
Qed.
End Rep.

(** ** a pass over a sum *)
Definition sp (s : pystr) : Prop := s = [] \/ exists s', s = " "%char :: s'.
Lemma sp_next {K} (key : K -> pystr) d : sp (concat (map (shown_next key) d)).
Proof. destruct d as [|[k v] d]; [now left|]. right. cbn [map concat]. unfold shown_next. cbn [snd]. destruct (v <? 0); cbn [lit list_ascii_of_string app]; eexists; reflexivity. Qed.
Lemma shown_pass {K} h o new (f f' : K -> pystr) d : d <> [] -> ~ In h (lit " +-") ->
  (forall k v, In (k, v) d -> forall s, sp s -> replace (String h o) new (shown_coef v ++ f k ++ s) = shown_coef v ++ f' k ++ replace (String h o) new s) ->
  replace (String h o) new (shown f d) = shown f' d.
Proof.
  intros Nd Nh H. destruct d as [|[k v] d]; [congruence|]. unfold shown. unfold shown_first. cbn [fst snd].
  assert (E : replace (String h o) new (concat (map (shown_next f) d)) = concat (map (shown_next f') d)).
  { assert (H' : forall k v, In (k, v) d -> forall s, sp s -> replace (String h o) new (shown_coef v ++ f k ++ s) = shown_coef v ++ f' k ++ replace (String h o) new s) by (intros; apply H; [now right|assumption]).
    clear H Nd. induction d as [|[k' v'] d IH]; [reflexivity|]. cbn [map concat]. unfold shown_next at 1 3. cbn [fst snd]. rewrite <- !app_assoc. rewrite R_free.
    2:{ intros X. apply Nh. destruct (v' <? 0); cbn in *; tauto. }
    f_equal. rewrite (H' k' v') by (auto using sp_next; now left). rewrite IH; [reflexivity|]. intros; apply H'; [now right|assumption]. }
  rewrite <- !app_assoc. rewrite R_free. 2:{ intros X. apply Nh. destruct (v <? 0); cbn in *; tauto. }
  f_equal. rewrite (H k v) by (auto using sp_next; now left). now rewrite E.
Qed.

(** ** removing the spaces *)
Ltac notin := let N := fresh "N" in cbn; intros N; repeat (destruct N as [N|N]; [discriminate|]); try contradiction.
Lemma R_lit_free h o new l s : ~ In h (lit l) -> replace (String h o) new (lit l ++ s) = lit l ++ replace (String h o) new s.
Proof. apply R_free. Qed.
Notation C := (replace ", " ",").
Lemma join_C {X} (f f' : X -> pystr) l : (forall a s, In a l -> C (f a ++ s) = f' a ++ C s) -> forall s, C (join (lit ", ") (map f l) ++ s) = join (lit ",") (map f' l) ++ C s.
Proof.
  induction l as [|a l IH]; intros H s; [reflexivity|]. cbn [map join]. destruct l as [|b l]; [apply H; now left|]. cbn [map] in *. rewrite <- !app_assoc. rewrite H by now left. f_equal.
  rewrite R_hit. f_equal. apply IH. intros; apply H. now right.
Qed.
Lemma tup_C {X} (f f' : X -> pystr) l : (forall a s, In a l -> C (f a ++ s) = f' a ++ C s) -> forall s, C (repr_tuple (map f l) ++ s) = tup_with (lit ",") (map f' l) ++ C s.
Proof.
  intros H s. unfold repr_tuple, tup_with. destruct l as [|a l]; [reflexivity|]. destruct l as [|b l].
  - cbn [map]. rewrite <- !app_assoc. rewrite R_lit_free by notin. rewrite H by now left. reflexivity.
  - change (map f (a :: b :: l)) with (f a :: f b :: map f l). change (map f' (a :: b :: l)) with (f' a :: f' b :: map f' l). cbn iota.
    change (f a :: f b :: map f l) with (map f (a :: b :: l)). change (f' a :: f' b :: map f' l) with (map f' (a :: b :: l)).
    rewrite <- !app_assoc. rewrite R_lit_free by notin. rewrite (join_C f f') by assumption. rewrite R_lit_free by notin. reflexivity.
Qed.
Lemma num_free z c : In c (lit " ,()[]+\otimes") -> ~ In c (str_int z).
Proof. intros H X. apply str_int_numeric in X. unfold numeric in X. cbn in H, X. intuition (subst; discriminate). Qed.
Lemma ints_C l s : C (repr_ints l ++ s) = shown_ints l ++ C s.
Proof. apply tup_C. intros a s' _. apply R_free. apply num_free. cbn. auto. Qed.
Lemma tuples_C l s : C (repr_tuples l ++ s) = shown_tuples l ++ C s.
Proof. apply tup_C. intros a s' _. apply ints_C. Qed.
Lemma C_idem_ints l s : C (shown_ints l ++ s) = shown_ints l ++ C s.
Proof.
  unfold shown_ints, tup_with.
  assert (J : forall l s, C (join (lit ",") (map str_int l) ++ ")"%char :: s) = join (lit ",") (map str_int l) ++ ")"%char :: C s).
  { clear. induction l as [|a l IH]; intros s; [cbn [map join app]; now rewrite R_skip by discriminate|]. destruct l as [|b l].
    - cbn [map join]. rewrite R_free by (apply num_free; cbn; auto). now rewrite R_skip by discriminate.
    - change (join (lit ",") (map str_int (a :: b :: l))) with (str_int a ++ lit "," ++ join (lit ",") (map str_int (b :: l))). rewrite <- !app_assoc. rewrite R_free by (apply num_free; cbn; auto). f_equal.
      cbn [lit list_ascii_of_string app]. rewrite R_miss; [f_equal; apply IH|].
      cbn [lit list_ascii_of_string prefixb]. rewrite Ascii.eqb_refl. cbn [andb].
      assert (N : forall u, prefixb (lit " ") (join (lit ",") (map str_int (b :: l)) ++ u) = false).
      { intros u. cbn [map join]. destruct (str_int b) as [|c w] eqn:E; [now apply str_int_ne in E|]. assert (Hc : c <> " "%char). { intros ->. apply (num_free b " "%char); [cbn; auto|]. rewrite E. now left. }
        destruct (map str_int l); cbn [app lit list_ascii_of_string prefixb]; destruct (Ascii.eqb_spec " "%char c); try congruence; reflexivity. }
      apply N. }
  destruct l as [|a [|b l]]; [reflexivity| |].
  - cbn [map]. rewrite <- !app_assoc. rewrite R_lit_free by notin. rewrite R_free by (apply num_free; cbn; auto). reflexivity.
  - change (map str_int (a :: b :: l)) with (str_int a :: str_int b :: map str_int l). cbn iota. change (str_int a :: str_int b :: map str_int l) with (map str_int (a :: b :: l)).
    rewrite <- !app_assoc. rewrite R_lit_free by notin. f_equal. cbn [lit list_ascii_of_string app]. apply J.
Qed.
Lemma coef_num v c : In c (shown_coef v) -> digit c.
Proof. unfold shown_coef. destruct (Z.abs v =? 1); [intros []|]. apply str_int_digit. lia. Qed.
Lemma coef_free v c : In c (lit " ,()[]+\otimes-") -> ~ In c (shown_coef v).
Proof. intros H X. apply coef_num in X. unfold digit in X. cbn in H, X. intuition (subst; discriminate). Qed.
Lemma shown_C {K} (f f' : K -> pystr) d : (forall k s, C (f k ++ s) = f' k ++ C s) -> C (shown f d) = shown f' d.
Proof.
  intros H. destruct d as [|kv d]; [reflexivity|]. apply shown_pass; [discriminate|notin|]. intros k v _ s _. rewrite R_free by (apply coef_free; cbn; auto). now rewrite H.
Qed.

(** ** printing is injective *)
Definition stop (s : pystr) : Prop := match s with [] => True | c :: _ => ~ numeric c end.
Lemma span_uniq (p : ascii -> Prop) u : forall v s t, (forall c, In c u -> p c) -> (forall c, In c v -> p c) ->
  match s with [] => True | c :: _ => ~ p c end -> match t with [] => True | c :: _ => ~ p c end -> u ++ s = v ++ t -> u = v /\ s = t.
Proof.
  induction u as [|a u IH]; intros v s t Hu Hv Hs Ht E.
  - destruct v as [|b v]; [auto|]. cbn in E. subst s. exfalso. apply Hs, Hv. now left.
  - destruct v as [|b v]; [cbn in E; subst t; exfalso; apply Ht, Hu; now left|]. cbn in E. injection E as -> E. destruct (IH v s t) as [-> ->]; auto; intros; [apply Hu|apply Hv]; now right.
Qed.
Definition code {X} (P : X -> pystr) (ok : pystr -> Prop) : Prop := forall x y s t, ok s -> ok t -> P x ++ s = P y ++ t -> x = y /\ s = t.
Lemma code_int : code str_int stop.
Proof.
  intros x y s t Hs Ht E. apply (span_uniq numeric) in E; eauto using str_int_numeric. destruct E as [E ->]. apply str_int_inj in E. auto.
Qed.
Section TupCode.
Context {X : Type} (P : X -> pystr) (ok : pystr -> Prop).
Hypothesis HP : code P ok.
Hypothesis Hc : forall s, ok (","%char :: s). Hypothesis Hp : forall s, ok (")"%char :: s).
Hypothesis Hne : forall x, exists c w, P x = c :: w /\ c <> ")"%char.
Notation J l := (join (lit ",") (map P l)).
Lemma J_cons a b l : J (a :: b :: l) = P a ++ ","%char :: J (b :: l). Proof. reflexivity. Qed.
Lemma code_join l : forall l' s t, l <> [] -> l' <> [] -> J l ++ ")"%char :: s = J l' ++ ")"%char :: t -> l = l' /\ s = t.
Proof.
  induction l as [|a l IH]; intros l' s t N N' E; [congruence|]. destruct l' as [|a' l']; [congruence|]. destruct l as [|b l], l' as [|b' l'].
  - cbn [map join] in E. apply HP in E; [|solve [apply Hc|apply Hp]..]. destruct E as [-> [= ->]]. auto.
  - rewrite J_cons in E. cbn [map join] in E. rewrite <- app_assoc in E. apply HP in E; [|solve [apply Hc|apply Hp]..]. destruct E as [_ E]. discriminate.
  - rewrite J_cons in E. cbn [map join] in E. rewrite <- app_assoc in E. apply HP in E; [|solve [apply Hc|apply Hp]..]. destruct E as [_ E]. discriminate.
  - rewrite !J_cons in E. rewrite <- !app_assoc in E. apply HP in E; [|solve [apply Hc|apply Hp]..]. destruct E as [-> E]. apply (f_equal (@tl ascii)) in E. apply (IH (b' :: l') s t) in E; try discriminate. destruct E as [-> ->]. auto.
Qed.
Lemma J_head a l s : exists c w, J (a :: l) ++ s = c :: w /\ c <> ")"%char.
Proof. destruct (Hne a) as (c & w & E & N). exists c. destruct l; cbn [map join]; rewrite E; cbn [app]; eauto. Qed.
Lemma code_tup : code (fun l => tup_with (lit ",") (map P l)) (fun _ => True).
Proof.
  intros l l' s t _ _ E.
  assert (T : forall l s, tup_with (lit ",") (map P l) ++ s = "("%char :: match l with [a] => P a ++ ","%char :: ")"%char :: s | _ => J l ++ ")"%char :: s end).
  { clear. intros [|a [|b l]] s; cbn [map tup_with]; [reflexivity| |]; cbn [lit list_ascii_of_string app]; rewrite <- app_assoc; reflexivity. }
  rewrite !T in E. apply (f_equal (@tl ascii)) in E. cbn [tl] in E. destruct l as [|a [|b l]], l' as [|a' [|b' l']].
  - cbn in E. injection E as ->. auto.
  - destruct (Hne a') as (c & w & Ec & N). rewrite Ec in E. cbn in E. congruence.
  - destruct (J_head a' (b' :: l') (")"%char :: t)) as (c & w & Ec & N). rewrite Ec in E. cbn in E. congruence.
  - destruct (Hne a) as (c & w & Ec & N). rewrite Ec in E. cbn in E. congruence.
  - apply HP in E; [|solve [apply Hc|apply Hp]..]. destruct E as [-> [= ->]]. auto.
  - rewrite J_cons, <- app_assoc in E. apply HP in E; [|solve [apply Hc|apply Hp]..]. destruct E as [_ E]. apply (f_equal (@tl ascii)) in E. change (")"%char :: s = J (b' :: l') ++ ")"%char :: t) in E.
    destruct (J_head b' l' (")"%char :: t)) as (c & w & Ec & N). congruence.
  - destruct (J_head a (b :: l) (")"%char :: s)) as (c & w & Ec & N). rewrite Ec in E. cbn in E. congruence.
  - rewrite J_cons, <- app_assoc in E. apply HP in E; [|solve [apply Hc|apply Hp]..]. destruct E as [_ E]. apply (f_equal (@tl ascii)) in E. change (J (b :: l) ++ ")"%char :: s = ")"%char :: t) in E.
    destruct (J_head b l (")"%char :: s)) as (c & w & Ec & N). congruence.
  - apply code_join in E; try discriminate. destruct E as [-> ->]. auto.
Qed.
End TupCode.
Lemma code_ints : code shown_ints (fun _ => True).
Proof.
  apply (code_tup str_int stop code_int).
  - intros s. cbn. intros X. unfold numeric in X. cbn in X. intuition discriminate.
  - intros s. cbn. intros X. unfold numeric in X. cbn in X. intuition discriminate.
  - intros z. destruct (str_int z) as [|c w] eqn:E; [now apply str_int_ne in E|]. exists c, w. split; [reflexivity|]. intros ->. apply (num_free z ")"%char); [cbn; auto 12|]. rewrite E. now left.
Qed.
Lemma tup_head sep l : exists w, tup_with sep l = "("%char :: w.
Proof. destruct l as [|a [|b l]]; cbn; eauto. Qed.
Lemma code_tuples : code shown_tuples (fun _ => True).
Proof.
  apply (code_tup shown_ints (fun _ => True) code_ints); auto. intros l. destruct (tup_head (lit ",") (map str_int l)) as (w & E). exists "("%char, w. split; [exact E|discriminate].
Qed.
Section SumCode.
Context {K : Type} (key : K -> pystr).
Hypothesis HK : code key (fun _ => True).
Hypothesis Hh : forall k, exists w, key k = "("%char :: w.
Lemma coef_inj v v' : v <> 0 -> v' <> 0 -> shown_coef v = shown_coef v' -> Z.abs v = Z.abs v'.
Proof.
  intros Hv Hv'. unfold shown_coef. destruct (Z.eqb_spec (Z.abs v) 1), (Z.eqb_spec (Z.abs v') 1); intros E; try lia.
  - symmetry in E. now apply str_int_ne in E.
  - now apply str_int_ne in E.
  - now apply str_int_inj in E.
Qed.
Lemma code_body k v k' v' s t : v <> 0 -> v' <> 0 -> shown_coef v ++ key k ++ s = shown_coef v' ++ key k' ++ t -> Z.abs v = Z.abs v' /\ k = k' /\ s = t.
Proof.
  intros Hv Hv' E. destruct (Hh k) as (w & Ek), (Hh k') as (w' & Ek').
  apply (span_uniq digit) in E; eauto using coef_num.
  - destruct E as [E1 E2]. apply HK in E2; auto. destruct E2 as [-> ->]. apply coef_inj in E1; auto.
  - rewrite Ek. cbn [app]. intros X. unfold digit in X. cbn in X. intuition discriminate.
  - rewrite Ek'. cbn [app]. intros X. unfold digit in X. cbn in X. intuition discriminate.
Qed.
Definition nz (d : list (K * Z)) : Prop := forall k v, In (k, v) d -> v <> 0.
Lemma nz_tl p d : nz (p :: d) -> nz d. Proof. intros H k v Hin. apply (H k). now right. Qed.
Lemma nz_hd k v d : nz ((k, v) :: d) -> v <> 0. Proof. intros H. apply (H k). now left. Qed.
Lemma next_inj d : forall d', nz d -> nz d' -> concat (map (shown_next key) d) = concat (map (shown_next key) d') -> d = d'.
Proof.
  induction d as [|[k v] d IH]; intros [|[k' v'] d'] H H' E; [reflexivity| | |].
  - cbn [map concat] in E. unfold shown_next at 1 in E. cbn [snd] in E. destruct (v' <? 0); discriminate.
  - cbn [map concat] in E. unfold shown_next at 1 in E. cbn [snd] in E. destruct (v <? 0); discriminate.
  - cbn [map concat] in E. unfold shown_next at 1 3 in E. cbn [fst snd] in E. rewrite <- !app_assoc in E.
    assert (E' : (v <? 0) = (v' <? 0) /\ shown_coef v ++ key k ++ concat (map (shown_next key) d) = shown_coef v' ++ key k' ++ concat (map (shown_next key) d')).
    { destruct (v <? 0), (v' <? 0); cbn [lit list_ascii_of_string app] in E; try discriminate; injection E as E; auto. }
    destruct E' as [Es E']. apply code_body in E'; eauto using nz_hd. destruct E' as (Ea & -> & E').
    apply IH in E'; eauto using nz_tl. subst d'. f_equal. f_equal. destruct (Z.ltb_spec v 0), (Z.ltb_spec v' 0); try discriminate; lia.
Qed.
Lemma shown_inj d d' : nz d -> nz d' -> shown key d = shown key d' -> d = d'.
Proof.
  intros H H' E.
  assert (Z0 : forall k v d, nz ((k, v) :: d) -> shown key ((k, v) :: d) <> lit "0").
  { clear -Hh. intros k v d H X. assert (Hin : In "("%char (shown key ((k, v) :: d))). { cbn [shown]. apply in_or_app. left. unfold shown_first. cbn [fst snd]. apply in_or_app. right. apply in_or_app. right. destruct (Hh k) as (w & ->). now left. }
    rewrite X in Hin. cbn in Hin. destruct Hin as [Hin|[]]. discriminate. }
  destruct d as [|[k v] d], d' as [|[k' v'] d']; [reflexivity| | |].
  - exfalso. symmetry in E. now apply Z0 in E.
  - exfalso. now apply Z0 in E.
  - unfold shown, shown_first in E. cbn [fst snd] in E. rewrite <- !app_assoc in E.
    assert (NM : forall v k r w, v <> 0 -> shown_coef v ++ key k ++ r <> "-"%char :: w).
    { clear -Hh. intros v k r w Hv X. destruct (shown_coef v) as [|c u] eqn:Ec.
      - destruct (Hh k) as (w' & Ek). rewrite Ek in X. discriminate.
      - cbn in X. injection X as -> X. apply (coef_free v "-"%char); [cbn; auto 20|]. rewrite Ec. now left. }
    assert (E' : (v <? 0) = (v' <? 0) /\ shown_coef v ++ key k ++ concat (map (shown_next key) d) = shown_coef v' ++ key k' ++ concat (map (shown_next key) d')).
    { destruct (v <? 0), (v' <? 0); cbn [lit list_ascii_of_string app] in E; auto.
      - injection E as E. auto.
      - exfalso. symmetry in E. apply NM in E; eauto using nz_hd.
      - exfalso. apply NM in E; eauto using nz_hd. }
    destruct E' as [Es E']. apply code_body in E'; eauto using nz_hd. destruct E' as (Ea & -> & E'). apply next_inj in E'; eauto using nz_tl. subst d'. f_equal. f_equal.
    destruct (Z.ltb_spec v 0), (Z.ltb_spec v' 0); try discriminate; lia.
Qed.
Lemma shown_zero d : nz d -> shown key d = lit "0" <-> d = [].
Proof. intros H. split; [|now intros ->]. intros E. apply (shown_inj d []); auto. intros ? ? []. Qed.
End SumCode.
