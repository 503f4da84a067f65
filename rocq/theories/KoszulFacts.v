(** * The Koszul specification against [kact].  Proof library. *)
From Coq Require Import Setoid Morphisms.
From Verif Require Import PyBase Dict FreeModule Symmetric Simplicial Eqm Spec SpecChain FreeModuleFacts FreeModuleLaws ListFacts ClassFacts LinearFacts SymmetricFacts
  CycleFacts SymmetricLaws RingFacts Tensor TensorAct.

Lemma find_lab p k j : length k = length p -> In j p ->
  match find (fun q => fst q =? j) (combine p k) with Some q => snd q | None => [] end = lab p k j.
Proof.
  revert k. induction p as [|i p IH]; intros [|b k] L Hin; try discriminate; [destruct Hin|]. cbn [combine find fst]. unfold lab. cbn [posn].
  destruct (Z.eqb_spec i j) as [->|N]; [reflexivity|]. destruct Hin as [->|Hin]; [congruence|].
  rewrite IH by (auto; cbn in L; lia). destruct (posn_index p j Hin) as (_ & H1 & _). unfold lab, znth.
  replace (Z.to_nat (posn p j + 1 - 1)) with (S (Z.to_nat (posn p j - 1))) by lia. reflexivity.
Qed.
Lemma placed_placef n p k : 0 <= n -> perm n p -> zlen k = n -> placed p k = placef p k.
Proof.
  intros Hn Hp Lk. pose proof (perm_len n p Hn Hp) as Lp. unfold placed, placef. apply map_ext_in. intros j Hj. apply in_zrange in Hj.
  apply find_lab; [unfold zlen in *; lia|]. apply (perm_in n p); auto. lia.
Qed.
Lemma combine_map_l {A B} (f : A -> B) l : combine l (map f l) = map (fun a => (a, f a)) l.
Proof. induction l as [|a l IH]; cbn; [reflexivity|]. now rewrite IH. Qed.
Lemma crossings_map p w : crossings (map (fun j => (j, w j)) p) = kinv p w.
Proof.
  unfold kinv. induction p as [|i p IH]; [reflexivity|]. cbn [map crossings pairsum]. rewrite IH. f_equal. rewrite map_map. reflexivity.
Qed.
Lemma koszul_kact n dg g p k : 0 <= n -> perm n p -> zlen k = n -> ev g (koszul dg p k) = kact dg g p k.
Proof.
  intros Hn Hp Lk. pose proof (perm_len n p Hn Hp) as Lp. unfold koszul. rewrite ev_cons, ev_nil, (placed_placef n) by assumption. unfold kact.
  rewrite Z.add_0_r. f_equal. f_equal.
  rewrite <- (map_lab p k) at 1 by (eauto using perm_nodup || (unfold zlen in *; lia)). rewrite map_map, combine_map_l. apply crossings_map.
Qed.
