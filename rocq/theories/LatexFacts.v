(** * LaTeX output.  Proof library. *)
From Coq Require Import Ascii String DecimalString.
From Verif Require Import PyBase Dict FreeModule Symmetric Simplicial Cubical Surjection BarrattEccles Spec Printing SpecPrint PrintFacts.
Import ListNotations.

Definition single {X} (s : list X) : bool := match s with [_] => true | _ => false end.
Section Keys.
Variable en : Z -> pystr.
Hypothesis Hen : forall e c, In c (en e) -> ~ In c (lit " ,()").
Hypothesis Hne : forall e, en e <> [].
Variable ot : string.
Hypothesis Hot : forall c, In c (lit ot) -> ~ In c (lit ",()").
Definition NN (s : list Z) : pystr := join (lit ",") (map en s).
Definition BB (s : list Z) : pystr := NN s ++ (if single s then lit "," else []).
Lemma NN_cons a b s : NN (a :: b :: s) = en a ++ lit "," ++ NN (b :: s). Proof. reflexivity. Qed.
Lemma NN_head a s : exists c w, NN (a :: s) = c :: w /\ ~ In c (lit " ,()").
Proof.
  pose proof (Hne a) as N. pose proof (Hen a) as E. unfold NN. cbn [map join]. destruct (en a) as [|c w]; [congruence|]. exists c. destruct (map en s); cbn [app]; eexists; split; eauto; apply E; now left.
Qed.
Lemma NN_free h s : h = "("%char \/ h = ")"%char -> ~ In h (NN s).
Proof.
  intros Hh. assert (F : forall a, ~ In h (en a)) by (intros a X; apply (Hen _ _ X); destruct Hh; subst; cbn; auto).
  induction s as [|a [|b s] IH]; [intros []|exact (F a)|]. rewrite NN_cons. rewrite !in_app_iff. intros [X|[X|X]]; [now apply F in X| |auto]. cbn in X. destruct X as [<-|[]]. destruct Hh; discriminate.
Qed.
Lemma NN_comma o new s w : s <> [] -> replace (String "," (String ")" o)) new (NN s ++ w) = NN s ++ replace (String "," (String ")" o)) new w.
Proof.
  assert (F : forall a, ~ In ","%char (en a)) by (intros a X; apply (Hen _ _ X); cbn; auto).
  induction s as [|a [|b s] IH]; intros Ns; [congruence|apply R_free, F|]. rewrite NN_cons, <- !app_assoc. rewrite R_free by apply F. f_equal. change (lit "," ++ NN (b :: s) ++ w) with (","%char :: NN (b :: s) ++ w).
  rewrite R_miss; [change (lit "," ++ NN (b :: s) ++ replace (String "," (String ")" o)) new w) with (","%char :: NN (b :: s) ++ replace (String "," (String ")" o)) new w); f_equal; apply IH; discriminate|].
  destruct (NN_head b s) as (c & u & E & N). rewrite E. cbn [lit list_ascii_of_string prefixb app]. rewrite Ascii.eqb_refl. cbn [andb]. destruct (Ascii.eqb_spec ")" c) as [<-|]; [|reflexivity]. exfalso. apply N. cbn. auto.
Qed.
Fixpoint G0 (s : list Z) (r : list (list Z)) : pystr := match r with [] => BB s ++ lit "))" | t :: r' => BB s ++ lit "),(" ++ G0 t r' end.
Fixpoint G1 (s : list Z) (r : list (list Z)) : pystr := match r with [] => BB s ++ lit "))" | t :: r' => NN s ++ (if single s then lit ot else lit "),(") ++ G1 t r' end.
Fixpoint G2 (s : list Z) (r : list (list Z)) : pystr := match r with [] => BB s ++ lit "))" | t :: r' => NN s ++ lit ot ++ G2 t r' end.
Definition KK (G : list Z -> list (list Z) -> pystr) (k : list (list Z)) : pystr :=
  match k with [] => [] | [s] => lit "((" ++ BB s ++ lit "),)" | s :: r => lit "((" ++ G s r end.
Definition full (k : list (list Z)) : Prop := k <> [] /\ forall s, In s k -> s <> [].
Lemma tup_BB s : s <> [] -> tup_with (lit ",") (map en s) = lit "(" ++ BB s ++ lit ")".
Proof.
  intros N. unfold BB. destruct s as [|a [|b s]]; [congruence| |].
  - cbn [map tup_with single]. unfold NN. cbn [map join]. rewrite <- app_assoc. reflexivity.
  - cbn [single]. rewrite app_nil_r. reflexivity.
Qed.
Lemma tuples_KK k : full k -> tup_with (lit ",") (map (fun s => tup_with (lit ",") (map en s)) k) = KK G0 k.
Proof.
  intros [Nk Hk]. destruct k as [|s [|t r]]; [congruence| |].
  - cbn [map tup_with KK]. rewrite tup_BB by (apply Hk; now left). rewrite <- !app_assoc. reflexivity.
  - unfold KK. unfold tup_with at 1. cbn [map]. cbn iota.
    assert (E : forall r s, (forall u, In u (s :: r) -> u <> []) -> join (lit ",") (map (fun s => tup_with (lit ",") (map en s)) (s :: r)) ++ lit ")" = lit "(" ++ G0 s r).
    { clear. induction r as [|t r IH]; intros s H.
      - cbn [map join G0]. rewrite tup_BB by (apply H; now left). rewrite <- !app_assoc. reflexivity.
      - change (map (fun s => tup_with (lit ",") (map en s)) (s :: t :: r)) with (tup_with (lit ",") (map en s) :: map (fun s => tup_with (lit ",") (map en s)) (t :: r)).
        change (join (lit ",") (tup_with (lit ",") (map en s) :: map (fun s => tup_with (lit ",") (map en s)) (t :: r))) with (tup_with (lit ",") (map en s) ++ lit "," ++ join (lit ",") (map (fun s => tup_with (lit ",") (map en s)) (t :: r))).
        rewrite <- !app_assoc, IH by (intros; apply H; now right). rewrite tup_BB by (apply H; now left). cbn [G0]. rewrite <- !app_assoc. reflexivity. }
    pose proof (E (t :: r) s) as E'. cbn [map] in E'. rewrite E' by (intros; now apply Hk). reflexivity.
Qed.
Ltac spc H := destruct H as [-> |[? ->]]; reflexivity.
Lemma open_free h o new s : h <> "("%char -> replace (String h o) new (lit "((" ++ s) = lit "((" ++ replace (String h o) new s.
Proof. intros N. apply R_free. cbn. intros [X|[X|[]]]; congruence. Qed.
Lemma pass1 k s : full k -> sp s -> replace ",),(" ot (KK G0 k ++ s) = KK G1 k ++ replace ",),(" ot s.
Proof.
  intros [Nk Hk] Hs. destruct k as [|u r]; [congruence|]. clear Nk. unfold KK. destruct r as [|t r].
  - rewrite <- !app_assoc, open_free by discriminate. f_equal. unfold BB. rewrite <- !app_assoc, NN_comma by (apply Hk; now left). f_equal. destruct (single u); spc Hs.
  - rewrite <- !app_assoc, open_free by discriminate. f_equal. revert Hk. generalize (t :: r). clear t r. intros r. revert u.
    assert (E : forall r u, (forall v, In v (u :: r) -> v <> []) -> replace ",),(" ot (G0 u r ++ s) = G1 u r ++ replace ",),(" ot s); [|intros u H; apply E; exact H].
    clear r. induction r as [|t r IH]; intros u H.
    + cbn [G0 G1]. unfold BB. rewrite <- !app_assoc, NN_comma by (apply H; now left). f_equal. destruct (single u); spc Hs.
    + cbn [G0 G1]. unfold BB. rewrite <- !app_assoc, NN_comma by (apply H; now left). f_equal. destruct (single u).
      * change (lit "," ++ lit "),(" ++ G0 t r ++ s) with (lit ",),(" ++ G0 t r ++ s). rewrite R_hit. f_equal. apply IH. intros; apply H; now right.
      * cbn [app]. change (lit "),(" ++ G0 t r ++ s) with (")"%char :: ","%char :: "("%char :: G0 t r ++ s). rewrite R_skip by discriminate. rewrite R_miss by reflexivity. rewrite R_skip by discriminate.
        rewrite IH by (intros; apply H; now right). reflexivity.
Qed.
Lemma pass2 k s : full k -> sp s -> replace "),(" ot (KK G1 k ++ s) = KK G2 k ++ replace "),(" ot s.
Proof.
  intros [Nk Hk] Hs. destruct k as [|u r]; [congruence|]. clear Nk. unfold KK.
  assert (FR : forall u w, replace "),(" ot (NN u ++ w) = NN u ++ replace "),(" ot w) by (intros; apply R_free, NN_free; auto).
  destruct r as [|t r].
  - rewrite <- !app_assoc, open_free by discriminate. f_equal. unfold BB. rewrite <- !app_assoc, FR. f_equal. destruct (single u); spc Hs.
  - rewrite <- !app_assoc, open_free by discriminate. f_equal. revert Hk. generalize (t :: r). clear t r. intros r. revert u.
    assert (E : forall r u, (forall v, In v (u :: r) -> v <> []) -> replace "),(" ot (G1 u r ++ s) = G2 u r ++ replace "),(" ot s); [|intros u H; apply E; exact H].
    clear r. induction r as [|t r IH]; intros u H.
    + cbn [G1 G2]. unfold BB. rewrite <- !app_assoc, FR. f_equal. destruct (single u); spc Hs.
    + cbn [G1 G2]. rewrite <- !app_assoc, FR. f_equal. destruct (single u).
      * rewrite R_free by (intros X; apply (Hot _ X); cbn; auto). f_equal. apply IH. intros; apply H; now right.
      * rewrite R_hit. f_equal. apply IH. intros; apply H; now right.
Qed.
End Keys.

(** the remaining passes only change the last factor *)
Fixpoint GL (en : Z -> pystr) (ot : string) (L : list Z -> pystr) (s : list Z) (r : list (list Z)) : pystr :=
  match r with [] => L s | t :: r' => NN en s ++ lit ot ++ GL en ot L t r' end.
Lemma GL_G2 en ot s r : GL en ot (fun s => BB en s ++ lit "))") s r = G2 en ot s r.
Proof. revert s. induction r as [|t r IH]; intros s; [reflexivity|]. cbn [GL G2]. now rewrite IH. Qed.
Lemma GL_pass h o new en en' ot L L' w : ~ In h (lit ot) -> forall r s, (forall u, In u (s :: r) -> u <> []) ->
  (forall u w, u <> [] -> replace (String h o) new (NN en u ++ w) = NN en' u ++ replace (String h o) new w) ->
  (forall u, u <> [] -> replace (String h o) new (L u ++ w) = L' u ++ replace (String h o) new w) ->
  replace (String h o) new (GL en ot L s r ++ w) = GL en' ot L' s r ++ replace (String h o) new w.
Proof.
  intros Hh r. induction r as [|t r IH]; intros s Hs HN HL; cbn [GL]; [apply HL, Hs; now left|]. rewrite <- !app_assoc, HN by (apply Hs; now left). f_equal. rewrite R_free by exact Hh. f_equal. apply IH; auto. intros; apply Hs; now right.
Qed.
Lemma GL_join en ot L a b : forall r s, (forall u, In u (s :: r) -> a ++ L u = a ++ NN en u ++ b) -> lit ot = b ++ lit " \otimes " ++ a ->
  a ++ GL en ot L s r = join (lit " \otimes ") (map (fun u => a ++ NN en u ++ b) (s :: r)).
Proof.
  induction r as [|t r IH]; intros s H E; [cbn [GL map join]; apply H; now left|].
  change (join (lit " \otimes ") (map (fun u => a ++ NN en u ++ b) (s :: t :: r))) with ((a ++ NN en s ++ b) ++ lit " \otimes " ++ join (lit " \otimes ") (map (fun u => a ++ NN en u ++ b) (t :: r))).
  rewrite <- IH by (try assumption; intros; apply H; now right). cbn [GL]. rewrite E, <- !app_assoc. reflexivity.
Qed.
Ltac spc H := destruct H as [-> |[? ->]]; reflexivity.

(** ** simplicial *)
Lemma int_clean e c : In c (str_int e) -> ~ In c (lit " ,()").
Proof. intros H X. apply str_int_numeric in H. unfold numeric in H. cbn in H, X. intuition (subst; discriminate). Qed.
Notation ots := "] \otimes ["%string.
Lemma ots_clean c : In c (lit ots) -> ~ In c (lit ",()").
Proof. cbn. intuition (subst; discriminate). Qed.
Definition SK (o : pystr) (L1 L : list Z -> pystr) (k : list (list Z)) : pystr := match k with [] => [] | [s] => o ++ L1 s | s :: r => o ++ GL str_int ots L s r end.
Definition novertex (k : list (list Z)) : Prop := forall v, k <> [[v]].
Notation NI := (NN str_int).
Lemma single_other (s : list Z) (k : list (list Z)) : novertex [s] -> single s = false.
Proof. intros H. destruct s as [|a [|b s]]; try reflexivity. exfalso. now apply (H a). Qed.
Lemma SK_pass h o new op op' L1 L1' L L' k w : full k -> ~ In h (lit ots) -> (forall w, replace (String h o) new (op ++ w) = op' ++ replace (String h o) new w) ->
  (forall u w, u <> [] -> replace (String h o) new (NI u ++ w) = NI u ++ replace (String h o) new w) ->
  (forall u, k = [u] -> replace (String h o) new (L1 u ++ w) = L1' u ++ replace (String h o) new w) ->
  (forall u, u <> [] -> replace (String h o) new (L u ++ w) = L' u ++ replace (String h o) new w) ->
  replace (String h o) new (SK op L1 L k ++ w) = SK op' L1' L' k ++ replace (String h o) new w.
Proof.
  intros [Nk Hk] Hh Ho HN H1 HL. destruct k as [|s [|t r]]; [congruence| |]; unfold SK; rewrite <- !app_assoc, Ho; f_equal; [now apply H1|]. apply GL_pass; auto.
Qed.
Lemma simp_passes d : d <> [] -> (forall k v, In (k, v) d -> full k /\ novertex k) ->
  replace "))" "]" (replace "),)" "]" (replace ",))" "]" (replace "((" "[" (replace "),(" ots (replace ",),(" ots (shown shown_tuples d)))))) = shown latex_simplices d.
Proof.
  intros Nd Hd.
  assert (E0 : shown shown_tuples d = shown (KK str_int (G0 str_int)) d).
  { assert (E : forall kv, In kv d -> shown_tuples (fst kv) = KK str_int (G0 str_int) (fst kv)) by (intros [k v] Hin; apply tuples_KK; now apply (Hd k v)).
    destruct d as [|kv d']; [congruence|]. unfold shown, shown_first. rewrite (E kv) by now left. f_equal. f_equal. apply map_ext_in. intros kv' Hin. unfold shown_next. rewrite (E kv') by now right. reflexivity. }
  rewrite E0. 
  assert (CO : forall h o new v w, In h (lit " ,()[]+\otimes-") -> replace (String h o) new (shown_coef v ++ w) = shown_coef v ++ replace (String h o) new w) by (intros; apply R_free; now apply coef_free).
  rewrite (shown_pass _ _ _ _ (KK str_int (G1 str_int ots))); [|exact Nd|notin|].
  2:{ intros k v Hin w Hw. rewrite CO by (cbn; auto). f_equal. apply (pass1 str_int int_clean str_int_ne); auto. now apply (Hd k v). }
  rewrite (shown_pass _ _ _ _ (SK (lit "((") (fun s => NI s ++ lit "),)") (fun s => BB str_int s ++ lit "))"))); [|exact Nd|notin|].
  2:{ intros k v Hin w Hw. rewrite CO by (cbn; auto). f_equal. destruct (Hd k v Hin) as [Hf Hn]. rewrite (pass2 str_int int_clean ots ots_clean); auto. f_equal. unfold KK, SK. destruct k as [|s [|t r]]; [reflexivity| |now rewrite GL_G2].
      unfold BB. rewrite (single_other s [s] Hn). now rewrite app_nil_r. }
  assert (FR : forall h o new u w, h = "("%char \/ h = ")"%char -> replace (String h o) new (NI u ++ w) = NI u ++ replace (String h o) new w) by (intros; apply R_free, (NN_free str_int int_clean); auto).
  rewrite (shown_pass _ _ _ _ (SK (lit "[") (fun s => NI s ++ lit "),)") (fun s => BB str_int s ++ lit "))"))); [|exact Nd|notin|].
  2:{ intros k v Hin w Hw. rewrite CO by (cbn; auto). f_equal. destruct (Hd k v Hin) as [Hf Hn]. apply SK_pass; [exact Hf|notin|intros; apply R_hit|intros; apply FR; auto| |].
      - intros u _. rewrite <- !app_assoc, FR by auto. reflexivity.
      - intros u _. unfold BB. rewrite <- !app_assoc, FR by auto. destruct (single u); reflexivity. }
  rewrite (shown_pass _ _ _ _ (SK (lit "[") (fun s => NI s ++ lit "),)") (fun s => NI s ++ (if single s then lit "]" else lit "))")))); [|exact Nd|notin|].
  2:{ intros k v Hin w Hw. rewrite CO by (cbn; auto). f_equal. destruct (Hd k v Hin) as [Hf Hn]. apply SK_pass; [exact Hf|notin| |intros; now apply (NN_comma str_int int_clean str_int_ne)| |].
      - intros u. apply R_free. notin.
      - intros u ->. rewrite <- !app_assoc, (NN_comma str_int int_clean str_int_ne); [spc Hw|]. apply Hf. now left.
      - intros u Hu. unfold BB. rewrite <- !app_assoc, (NN_comma str_int int_clean str_int_ne) by assumption. destruct (single u); spc Hw. }
  rewrite (shown_pass _ _ _ _ (SK (lit "[") (fun s => NI s ++ lit "]") (fun s => NI s ++ (if single s then lit "]" else lit "))")))); [|exact Nd|notin|].
  2:{ intros k v Hin w Hw. rewrite CO by (cbn; auto). f_equal. destruct (Hd k v Hin) as [Hf Hn]. apply SK_pass; [exact Hf|notin| |intros; apply FR; auto| |].
      - intros u. apply R_free. notin.
      - intros u ->. rewrite <- !app_assoc, FR by auto. reflexivity.
      - intros u Hu. rewrite <- !app_assoc, FR by auto. destruct (single u); spc Hw. }
  apply shown_pass; [exact Nd|notin|]. intros k v Hin w Hw. rewrite CO by (cbn; auto). f_equal. destruct (Hd k v Hin) as [Hf Hn].
  transitivity (SK (lit "[") (fun s => NI s ++ lit "]") (fun s => NI s ++ lit "]") k ++ replace "))" "]" w).
  - apply SK_pass; [exact Hf|notin| |intros; apply FR; auto| |].
    + intros u. apply R_free. notin.
    + intros u _. rewrite <- !app_assoc, FR by auto. reflexivity.
    + intros u _. rewrite <- !app_assoc, FR by auto. destruct (single u); reflexivity.
  - f_equal. unfold SK. destruct k as [|s [|t r]]; [reflexivity|reflexivity|]. apply (GL_join str_int ots _ (lit "[") (lit "]")); reflexivity.
Qed.

(** ** replacing a single character is a homomorphism *)
Section Char.
Variables (h : ascii) (new : string).
Notation H := (replace (String h EmptyString) new).
Lemma H_app u s : H (u ++ s) = H u ++ H s.
Proof.
  induction u as [|c u IH]; [reflexivity|]. unfold replace in *. cbn [app replace_from lit list_ascii_of_string prefixb length Nat.sub]. rewrite andb_true_r.
  destruct (Ascii.eqb h c); cbn [lit list_ascii_of_string] in *; rewrite IH; [now rewrite app_assoc|reflexivity].
Qed.
Lemma H_free u : ~ In h u -> H u = u.
Proof. intros N. rewrite <- (app_nil_r u) at 1. rewrite R_free by exact N. apply app_nil_r. Qed.
Lemma H_chars u c : In c (H u) -> In c u \/ In c (lit new).
Proof.
  induction u as [|a u IH]; [intros []|]. change (a :: u) with ([a] ++ u) at 1. rewrite H_app, in_app_iff. intros [X|X].
  - unfold replace in X. cbn [replace_from lit list_ascii_of_string prefixb] in X. rewrite andb_true_r in X. destruct (Ascii.eqb h a); cbn [length Nat.sub replace_from] in X.
    + rewrite app_nil_r in X. now right.
    + destruct X as [<-|[]]. left. now left.
  - destruct (IH X) as [Y|Y]; [left; now right|now right].
Qed.
Lemma H_NN en s : h <> ","%char -> H (NN en s) = NN (fun e => H (en e)) s.
Proof.
  intros N. induction s as [|a [|b s] IH]; [reflexivity|reflexivity|]. rewrite !NN_cons, !H_app, IH. f_equal. f_equal. apply H_free. cbn. intros [X|[]]. congruence.
Qed.
Lemma H_BB en s : h <> ","%char -> H (BB en s) = BB (fun e => H (en e)) s.
Proof. intros N. unfold BB. rewrite H_app, H_NN by exact N. f_equal. destruct (single s); [|reflexivity]. apply H_free. cbn. intros [X|[]]. congruence. Qed.
Lemma H_KK en k : ~ In h (lit ",()") -> H (KK en (G0 en) k) = KK (fun e => H (en e)) (G0 (fun e => H (en e))) k.
Proof.
  intros N. assert (Nc : h <> ","%char) by (intros ->; apply N; cbn; auto).
  assert (HL : forall l, (forall c, In c (lit l) -> In c (lit ",()")) -> H (lit l) = lit l) by (intros l Hl; apply H_free; auto).
  assert (HG : forall r s, H (G0 en s r) = G0 (fun e => H (en e)) s r).
  { induction r as [|t r IH]; intros s; cbn [G0]; rewrite !H_app, H_BB by exact Nc; f_equal; [apply HL; cbn; tauto|]. rewrite IH. f_equal. apply HL. cbn. tauto. }
  destruct k as [|s [|t r]]; [reflexivity| |]; unfold KK; rewrite !H_app, ?H_BB, ?HG by exact Nc; f_equal; try (apply HL; cbn; tauto). f_equal. apply HL. cbn. tauto.
Qed.
End Char.

(** ** cubical *)
Definition en1 (e : Z) : pystr := replace "1" "[1]" (str_int e).
Definition en2 (e : Z) : pystr := replace "0" "[0]" (en1 e).
Definition cell (k : list (list Z)) : Prop := full k /\ forall s e, In s k -> In e s -> e = 0 \/ e = 1 \/ e = 2.
Fixpoint GB (Bd : list Z -> pystr) (s : list Z) (r : list (list Z)) : pystr := match r with [] => Bd s ++ lit "))" | t :: r' => Bd s ++ lit "),(" ++ GB Bd t r' end.
Definition KB (Bd : list Z -> pystr) (k : list (list Z)) : pystr := match k with [] => [] | [s] => lit "((" ++ Bd s ++ lit "),)" | s :: r => lit "((" ++ GB Bd s r end.
Lemma KK_KB en k : KK en (G0 en) k = KB (BB en) k.
Proof.
  assert (E : forall r s, G0 en s r = GB (BB en) s r) by (induction r as [|t r IH]; intros s; cbn [G0 GB]; [reflexivity|now rewrite IH]).
  unfold KK, KB. destruct k as [|s [|t r]]; [reflexivity|reflexivity|]. now rewrite E.
Qed.
Lemma KB_pass h o new Bd Bd' k w : full k -> h <> "("%char -> sp w ->
  (forall u z, In u k -> replace (String h o) new (Bd u ++ ")"%char :: z) = Bd' u ++ replace (String h o) new (")"%char :: z)) ->
  (forall z, replace (String h o) new (lit "),(" ++ z) = lit "),(" ++ replace (String h o) new z) ->
  replace (String h o) new (lit "))" ++ w) = lit "))" ++ replace (String h o) new w ->
  replace (String h o) new (lit "),)" ++ w) = lit "),)" ++ replace (String h o) new w ->
  replace (String h o) new (KB Bd k ++ w) = KB Bd' k ++ replace (String h o) new w.
Proof.
  intros [Nk _] Hh Hw HB HG H2 H3. destruct k as [|s [|t r]]; [congruence| |]; unfold KB; rewrite <- !app_assoc, open_free by exact Hh; f_equal.
  - change (lit "),)" ++ w) with (")"%char :: ","%char :: ")"%char :: w) at 1. rewrite HB by now left. f_equal. exact H3.
  - revert HB. generalize (t :: r). clear t r Nk. intros r HB. revert s HB. induction r as [|t r IH]; intros s HB; cbn [GB]; rewrite <- !app_assoc.
    + change (lit "))" ++ w) with (")"%char :: ")"%char :: w) at 1. rewrite HB by now left. f_equal. exact H2.
    + change (lit "),(" ++ GB Bd t r ++ w) with (")"%char :: ","%char :: "("%char :: GB Bd t r ++ w) at 1. rewrite HB by now left. f_equal.
      change (replace (String h o) new (lit "),(" ++ (GB Bd t r ++ w)) = lit "),(" ++ GB Bd' t r ++ replace (String h o) new w). rewrite HG. f_equal. apply IH. intros u z Hu. apply HB. now right.
Qed.
Fixpoint Nc (s : list Z) : pystr := match s with [] => [] | a :: t => match t with [] => en2 a | _ => latex_interval a ++ lit "," ++ Nc t end end.
Definition Bc (s : list Z) : pystr := match s with [a] => latex_interval a ++ lit "," | _ => Nc s end.
Notation RC := (replace "2," "[01],").
Notation RD := (replace ",2" ",[01]").
Lemma en_cases e : e = 0 \/ e = 1 \/ e = 2 -> (e = 0 /\ en2 e = lit "[0]") \/ (e = 1 /\ en2 e = lit "[1]") \/ (e = 2 /\ en2 e = lit "2").
Proof. intros [-> |[-> | ->]]; [left|right; left|right; right]; split; reflexivity. Qed.
Lemma RC_item e z : e = 0 \/ e = 1 \/ e = 2 -> RC (en2 e ++ ","%char :: z) = latex_interval e ++ ","%char :: RC z.
Proof. intros He. destruct (en_cases e He) as [[-> E]|[[-> E]|[-> E]]]; rewrite E; reflexivity. Qed.
Lemma RC_last e z : e = 0 \/ e = 1 \/ e = 2 -> RC (en2 e ++ ")"%char :: z) = en2 e ++ ")"%char :: RC z.
Proof. intros He. destruct (en_cases e He) as [[-> E]|[[-> E]|[-> E]]]; rewrite E; reflexivity. Qed.
Lemma passC s z : s <> [] -> (forall e, In e s -> e = 0 \/ e = 1 \/ e = 2) -> RC (BB en2 s ++ ")"%char :: z) = Bc s ++ RC (")"%char :: z).
Proof.
  intros Ns Hs. change (RC (")"%char :: z)) with (")"%char :: RC z). destruct s as [|a [|b s]]; [congruence| |].
  - unfold BB, NN. cbn [map join single Bc]. rewrite <- !app_assoc. change (lit "," ++ ")"%char :: z) with (","%char :: ")"%char :: z). rewrite RC_item by (apply Hs; now left). reflexivity.
  - unfold BB. cbn [single]. rewrite app_nil_r. unfold Bc. clear Ns. revert a b Hs. induction s as [|c s IH]; intros a b Hs.
    + cbn [Nc]. unfold NN. cbn [map join]. rewrite <- !app_assoc. change (lit "," ++ en2 b ++ ")"%char :: z) with (","%char :: en2 b ++ ")"%char :: z). rewrite RC_item by (apply Hs; now left).
      rewrite RC_last by (apply Hs; right; now left). reflexivity.
    + rewrite NN_cons. change (Nc (a :: b :: c :: s)) with (latex_interval a ++ lit "," ++ Nc (b :: c :: s)). rewrite <- !app_assoc. change (lit "," ++ NN en2 (b :: c :: s) ++ ")"%char :: z) with (","%char :: NN en2 (b :: c :: s) ++ ")"%char :: z).
      rewrite RC_item by (apply Hs; now left). rewrite IH by (intros; apply Hs; now right). reflexivity.
Qed.
Lemma li_clean e c : In c (latex_interval e) -> ~ In c (lit " ,()").
Proof. unfold latex_interval. destruct (e =? 2), (e =? 1); cbn; intuition (subst; discriminate). Qed.
Lemma li_ne e : latex_interval e <> [].
Proof. unfold latex_interval. destruct (e =? 2), (e =? 1); discriminate. Qed.
Lemma RD_li e z : RD (latex_interval e ++ z) = latex_interval e ++ RD z.
Proof. apply R_free. intros X. apply li_clean in X. apply X. cbn. auto. Qed.
Lemma RD_next t z : t <> [] -> (forall e, In e t -> e = 0 \/ e = 1 \/ e = 2) -> RD (","%char :: Nc t ++ ")"%char :: z) = ","%char :: NN latex_interval t ++ ")"%char :: RD z.
Proof.
  induction t as [|a [|b t] IH]; intros Nt Ht; [congruence| |].
  - cbn [Nc]. unfold NN. cbn [map join]. destruct (en_cases a) as [[-> E]|[[-> E]|[-> E]]]; [apply Ht; now left| | |]; rewrite E; reflexivity.
  - change (Nc (a :: b :: t)) with (latex_interval a ++ lit "," ++ Nc (b :: t)). rewrite NN_cons, <- !app_assoc. rewrite R_miss.
    + f_equal. rewrite RD_li. f_equal. change (RD (","%char :: Nc (b :: t) ++ ")"%char :: z) = ","%char :: NN latex_interval (b :: t) ++ ")"%char :: RD z). apply IH; [discriminate|]. intros; apply Ht; now right.
    + unfold latex_interval. destruct (a =? 2), (a =? 1); reflexivity.
Qed.
Lemma passD s z : s <> [] -> (forall e, In e s -> e = 0 \/ e = 1 \/ e = 2) -> RD (Bc s ++ ")"%char :: z) = BB latex_interval s ++ RD (")"%char :: z).
Proof.
  intros Ns Hs. change (RD (")"%char :: z)) with (")"%char :: RD z). destruct s as [|a [|b s]]; [congruence| |].
  - unfold BB, NN. cbn [map join single Bc]. rewrite <- !app_assoc, RD_li. reflexivity.
  - unfold BB. cbn [single]. rewrite app_nil_r. change (Bc (a :: b :: s)) with (latex_interval a ++ lit "," ++ Nc (b :: s)). rewrite NN_cons, <- !app_assoc, RD_li. f_equal.
    change (RD (","%char :: Nc (b :: s) ++ ")"%char :: z) = ","%char :: NN latex_interval (b :: s) ++ ")"%char :: RD z). apply RD_next; [discriminate|]. intros; apply Hs; now right.
Qed.
Lemma RC_coef v z : RC (shown_coef v ++ "("%char :: z) = shown_coef v ++ RC ("("%char :: z).
Proof.
  assert (Hn : ~ In ","%char (shown_coef v)) by (apply coef_free; cbn; auto). revert Hn. generalize (shown_coef v). induction p as [|c p IH]; intros Hn; [reflexivity|]. cbn [app]. rewrite R_miss.
  - f_equal. apply IH. intros X. apply Hn. now right.
  - cbn [lit list_ascii_of_string prefixb]. destruct p as [|c' p]; cbn [app]; [now rewrite andb_false_r|]. destruct (Ascii.eqb_spec "," c') as [<-|]; [exfalso; apply Hn; right; now left|now rewrite andb_false_r].
Qed.
Notation otc := " \otimes "%string.
Lemma otc_clean c : In c (lit otc) -> ~ In c (lit ",()").
Proof. cbn. intuition (subst; discriminate). Qed.
Notation NL := (NN latex_interval).
Notation BL := (BB latex_interval).
Lemma BL_free h s : h = "("%char \/ h = ")"%char -> ~ In h (BL s).
Proof. intros Hh. unfold BB. rewrite in_app_iff. intros [X|X]; [now apply (NN_free latex_interval li_clean h s Hh)|]. destruct (single s); cbn in X; intuition (subst; discriminate). Qed.
Definition CK (o : pystr) (k : list (list Z)) : pystr := match k with [] => [] | [s] => o ++ BL s ++ lit "," | s :: r => o ++ GL latex_interval otc BL s r end.
Lemma GL_free h r : forall s, h = "("%char \/ h = ")"%char -> ~ In h (GL latex_interval otc BL s r).
Proof.
  induction r as [|t r IH]; intros s Hh; cbn [GL]; [now apply BL_free|]. rewrite !in_app_iff. intros [X|[X|X]]; [now apply (NN_free latex_interval li_clean h s Hh)| |now apply (IH t Hh)].
  apply otc_clean in X. apply X. destruct Hh; subst; cbn; auto.
Qed.
Lemma CK_free h k : h = "("%char \/ h = ")"%char -> ~ In h (CK [] k).
Proof.
  intros Hh. unfold CK. destruct k as [|s [|t r]]; [intros []| |]; cbn [app]; [|now apply GL_free]. rewrite in_app_iff. intros [X|X]; [now apply BL_free in X|]. cbn in X. destruct Hh; subst; intuition discriminate.
Qed.
Notation HP := (replace ")" "").
Lemma passG k : HP (KK latex_interval (G2 latex_interval otc) k) = CK (lit "((") k.
Proof.
  assert (E : forall r s, HP (G2 latex_interval otc s r) = GL latex_interval otc BL s r).
  { induction r as [|t r IH]; intros s; cbn [G2 GL]; rewrite !H_app.
    - rewrite (H_free _ _ (BL s)) by (apply BL_free; auto). apply app_nil_r.
    - rewrite (H_free _ _ (NL s)) by (apply (NN_free latex_interval li_clean); auto). rewrite IH. reflexivity. }
  unfold KK, CK. destruct k as [|s [|t r]]; [reflexivity| |]; rewrite !H_app.
  - rewrite (H_free _ _ (BL s)) by (apply BL_free; auto). reflexivity.
  - rewrite E. reflexivity.
Qed.
Notation HC := (replace "," "").
Lemma HC_NL s : HC (NL s) = latex_cube s.
Proof.
  assert (L : forall e, HC (latex_interval e) = latex_interval e) by (intros e; apply H_free; intros X; apply li_clean in X; apply X; cbn; auto).
  induction s as [|a [|b s] IH]; [reflexivity| |].
  - unfold NN, latex_cube. cbn [map join concat]. rewrite L. now rewrite app_nil_r.
  - rewrite NN_cons, !H_app, L, IH. reflexivity.
Qed.
Lemma HC_BL s : HC (BL s) = latex_cube s.
Proof. unfold BB. rewrite H_app, HC_NL. destruct (single s); cbn; now rewrite app_nil_r. Qed.
Lemma passL k : HC (CK [] k) = latex_cubes k.
Proof.
  unfold CK, latex_cubes. destruct k as [|s [|t r]]; [reflexivity| |]; cbn [app].
  - rewrite H_app, HC_BL. cbn. now rewrite app_nil_r.
  - generalize (t :: r). clear. intros r. revert s. induction r as [|t r IH]; intros s; cbn [GL].
    + rewrite HC_BL. reflexivity.
    + rewrite !H_app, HC_NL, IH. reflexivity.
Qed.
Lemma cub_passes d : d <> [] -> (forall k v, In (k, v) d -> cell k /\ ~ In "0"%char (shown_coef v) /\ ~ In "1"%char (shown_coef v)) ->
  replace "," "" (replace "))" "" (replace ")" "" (replace "((" "" (replace ")" "" (replace "),(" otc (replace ",),(" otc (RD (RC (replace "0" "[0]" (replace "1" "[1]" (shown shown_tuples d))))))))))) = shown latex_cubes d.
Proof.
  intros Nd Hd.
  assert (E0 : shown shown_tuples d = shown (KK str_int (G0 str_int)) d).
  { assert (E : forall kv, In kv d -> shown_tuples (fst kv) = KK str_int (G0 str_int) (fst kv)) by (intros [k v] Hin; apply tuples_KK; now apply (Hd k v)).
    destruct d as [|kv d']; [congruence|]. unfold shown, shown_first. rewrite (E kv) by now left. f_equal. f_equal. apply map_ext_in. intros kv' Hin. unfold shown_next. rewrite (E kv') by now right. reflexivity. }
  rewrite E0.
  assert (CO : forall h o new v w, In h (lit " ,()[]+\otimes-") -> replace (String h o) new (shown_coef v ++ w) = shown_coef v ++ replace (String h o) new w) by (intros; apply R_free; now apply coef_free).
  rewrite (shown_pass _ _ _ _ (KK en1 (G0 en1))); [|exact Nd|notin|].
  2:{ intros k v Hin w Hw. rewrite R_free by now apply (Hd k v). f_equal. rewrite H_app. f_equal. apply H_KK. notin. }
  rewrite (shown_pass _ _ _ _ (KK en2 (G0 en2))); [|exact Nd|notin|].
  2:{ intros k v Hin w Hw. rewrite R_free by now apply (Hd k v). f_equal. rewrite H_app. f_equal. apply H_KK. notin. }
  rewrite (shown_pass _ _ _ _ (KB Bc)); [|exact Nd|notin|].
  2:{ intros k v Hin w Hw. destruct (Hd k v Hin) as ((Hf & He) & _). rewrite KK_KB.
      assert (Hh : exists z, KB (BB en2) k = "("%char :: z) by (destruct Hf as [Nk _]; destruct k as [|s [|t r]]; [congruence| |]; eexists; reflexivity). destruct Hh as (z & Ez).
      rewrite Ez. cbn [app]. rewrite RC_coef. f_equal. change ("("%char :: z ++ w) with (("("%char :: z) ++ w). rewrite <- Ez.
      apply KB_pass; [exact Hf|discriminate|exact Hw| |reflexivity|reflexivity|reflexivity]. intros u y Hu. apply passC; [now apply Hf|intros e Hein; eapply He; eauto]. }
  rewrite (shown_pass _ _ _ _ (KK latex_interval (G0 latex_interval))); [|exact Nd|notin|].
  2:{ intros k v Hin w Hw. destruct (Hd k v Hin) as ((Hf & He) & _). rewrite CO by (cbn; auto). f_equal. rewrite KK_KB. apply KB_pass; [exact Hf|discriminate|exact Hw| |reflexivity|reflexivity|spc Hw].
      intros u y Hu. apply passD; [now apply Hf|intros e Hein; eapply He; eauto]. }
  rewrite (shown_pass _ _ _ _ (KK latex_interval (G1 latex_interval otc))); [|exact Nd|notin|].
  2:{ intros k v Hin w Hw. rewrite CO by (cbn; auto). f_equal. apply (pass1 latex_interval li_clean li_ne); auto. now apply (Hd k v). }
  rewrite (shown_pass _ _ _ _ (KK latex_interval (G2 latex_interval otc))); [|exact Nd|notin|].
  2:{ intros k v Hin w Hw. rewrite CO by (cbn; auto). f_equal. apply (pass2 latex_interval li_clean otc otc_clean); auto. now apply (Hd k v). }
  rewrite (shown_pass _ _ _ _ (CK (lit "(("))); [|exact Nd|notin|].
  2:{ intros k v Hin w Hw. rewrite CO by (cbn; auto). f_equal. rewrite H_app. f_equal. apply passG. }
  rewrite (shown_pass _ _ _ _ (CK [])); [|exact Nd|notin|].
  2:{ intros k v Hin w Hw. rewrite CO by (cbn; auto). f_equal. assert (E : CK (lit "((") k ++ w = lit "((" ++ CK [] k ++ w).
      { destruct (Hd k v Hin) as (((Nk & _) & _) & _). unfold CK. destruct k as [|s [|t r]]; [congruence| |]; rewrite <- !app_assoc; reflexivity. }
      rewrite E, R_hit. cbn [lit list_ascii_of_string app]. apply R_free. apply CK_free. auto. }
  rewrite (shown_pass _ _ _ _ (CK [])); [|exact Nd|notin|].
  2:{ intros k v Hin w Hw. rewrite CO by (cbn; auto). f_equal. apply R_free. apply CK_free. auto. }
  rewrite (shown_pass _ _ _ _ (CK [])); [|exact Nd|notin|].
  2:{ intros k v Hin w Hw. rewrite CO by (cbn; auto). f_equal. apply R_free. apply CK_free. auto. }
  apply shown_pass; [exact Nd|notin|]. intros k v Hin w Hw. rewrite CO by (cbn; auto). f_equal. rewrite H_app. f_equal. apply passL.
Qed.
