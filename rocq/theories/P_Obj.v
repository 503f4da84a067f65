(** * Property theorems.  Generated by tools/mkprop.py from the tagged lemmas of
    ObjLaws.v: every theorem is closed by [exact]. *)
From Coq Require Import Znumtheory Sorting.Sorted.
From Verif Require Import PyBase Dict FreeModule Symmetric Simplicial Cubical Utils Surjection BarrattEccles GroupMul Heap HeapApi World SpecObjects ObjLaws.

(** In every state reached by a history of calls, a call whose
    operands exist returns an object with exactly the value that the
    value-level model (the one all other theorems are about) gives for the
    values of the operands, or raises the same exception. *)
Theorem C92_answers : forall (dt : Z) (dc : conv) (before : list call) (c : call),
  let w := wrun dt dc before empty_world in
  (forall q, In q (operands c) -> alive w q) ->
  let (w', r) := wcall dt dc c w in
  match expected dt w c with
  | Ok v => exists q, r = Ok q /\ sees w' q = Some v
  | Err e => r = Err e
  end.
Proof. exact @C92_answers_l. Qed.
Print Assumptions C92_answers.

(** Whatever a program calls, and whether or not the
    calls raise, an object keeps its value and attributes as long as it is
    not the left side of [+=] or [-=] and [set_torsion] is not called. *)
Theorem C92_objects_stable : forall (dt : Z) (dc : conv) (before after : list call) (q : ref) (v : value),
  let w := wrun dt dc before empty_world in
  sees w q = Some v ->
  (forall c, In c after -> ~ in_place c q /\ ~ sets_torsion c) ->
  sees (wrun dt dc after w) q = Some v.
Proof. exact @C92_objects_stable_l. Qed.
Print Assumptions C92_objects_stable.

(** The answer of a call is an object that did not exist
    before, except for [+=], [-=] and [set_torsion], and for [x.join()],
    [x.suspension()] and (Barratt-Eccles) [x.orbit()] with [x] zero, which
    return the operand itself. *)
Theorem C92_new_objects : forall (dt : Z) (dc : conv) (before : list call) (c : call) (w' : world) (q : ref),
  let w := wrun dt dc before empty_world in
  wcall dt dc c w = (w', Ok q) ->
  match returns_itself w c with Some x => q = x | None => sees w q = None end.
Proof. exact @C92_new_objects_l. Qed.
Print Assumptions C92_new_objects.

(** [q.set_torsion(t)] changes the torsion of [p]
    exactly when [p] and [q] are of the same family: that is, when the
    attributes of both were passed on, answer by answer, from one
    constructor call. *)
Theorem C92_set_torsion_exact : forall (dt : Z) (dc : conv) (before : list call) (p q : ref) (a b : nat) (v : value) (t : Z),
  let s := hist_run dt dc before in
  let w := wrun dt dc before empty_world in
  fam s p = Some a -> fam s q = Some b -> p <> q -> sees w p = Some v ->
  sees (fst (wcall dt dc (CFree (fst q) (OSetTorsion (snd q) t)) w)) p =
    Some (if Nat.eqb a b then with_torsion v t else v).
Proof. exact @C92_set_torsion_exact_l. Qed.
Print Assumptions C92_set_torsion_exact.

(** Every object a program holds has a family: the answer of a
    call whose operands have one has one. *)
Theorem C92_families : forall (dt : Z) (dc : conv) (before : list call) (c : call) (w' : world) (q : ref),
  let s := hist_run dt dc before in
  let w := wrun dt dc before empty_world in
  (forall o, In o (operands c) -> fam s o <> None) ->
  wcall dt dc c w = (w', Ok q) ->
  fam (hist_run dt dc (before ++ [c])) q <> None.
Proof. exact @C92_families_l. Qed.
Print Assumptions C92_families.

(** A call whose answer shares no attributes gives an
    answer whose [set_torsion] changes nothing that existed before. *)
Theorem C92_own_attributes : forall (dt : Z) (dc : conv) (before : list call) (c : call) (w' : world) (p q : ref) (v : value) (t : Z),
  let w := wrun dt dc before empty_world in
  returns_itself w c = None -> owner w c = None ->
  wcall dt dc c w = (w', Ok q) -> sees w p = Some v ->
  sees (fst (wcall dt dc (CFree (fst q) (OSetTorsion (snd q) t)) w')) p = Some v.
Proof. exact @C92_own_attributes_l. Qed.
Print Assumptions C92_own_attributes.

(** The answer [q] of any other call shares its
    attributes with the operand [o]: [q.set_torsion(t)] changes the torsion
    of [o]. *)
Theorem C92_shared_attributes : forall (dt : Z) (dc : conv) (before : list call) (c : call) (w' : world) (o q : ref) (v : value) (t : Z),
  let w := wrun dt dc before empty_world in
  returns_itself w c = None -> owner w c = Some o ->
  wcall dt dc c w = (w', Ok q) -> sees w o = Some v ->
  sees (fst (wcall dt dc (CFree (fst q) (OSetTorsion (snd q) t)) w')) o = Some (with_torsion v t).
Proof. exact @C92_shared_attributes_l. Qed.
Print Assumptions C92_shared_attributes.

Example demo_answers : let w := wrun 0 MS demo empty_world in
  sees w (KBE, 1%nat) = Some (val KBE (mkElt [([[2;1]] : bkey, 1); ([[1;2]] : bkey, -1)] 0 tt)) /\
  sees w (KSurj, 0%nat) = Some (val KSurj (mkElt [([1;2;1], 1)] 0 BF)) /\
  sees w (KSimp, 1%nat) = Some (val KSimp cup1_012) /\
  snd (wcall 0 MS (SurjCallSimp 0 0 1) w) = Err NotImplementedError.
Proof. exact @demo_answers_l. Qed.

(** the boundary is in the family of the element, its table
    reduction is not. *)
Example demo_families : let s := hist_run 0 MS demo in
  fam s (KBE, 0%nat) = Some 0%nat /\ fam s (KBE, 1%nat) = Some 0%nat /\ fam s (KSurj, 0%nat) = Some 1%nat /\
  fam s (KSimp, 0%nat) = fam s (KSimp, 1%nat) /\ fam s (KSimp, 0%nat) <> None.
Proof. exact @demo_families_l. Qed.

(** [b = x.boundary(); b.set_torsion(3)] changes the torsion of [x]. *)
Example demo_shared : sees (wrun 0 MS (demo ++ [CFree KBE (OSetTorsion 1 3)]) empty_world) (KBE, 0%nat) =
    Some (val KBE (mkElt [([[1;2];[2;1]] : bkey, 1)] 3 tt)).
Proof. exact @demo_shared_l. Qed.

(** [x] zero: [y = x.orbit(); y += z] changes [x]. *)
Example demo_alias : let w := wrun 0 MS [CFree KBE (ONew [] None tt); BeOrbit 0 Trivial;
                      CFree KBE (ONew [([[1;2]] : bkey, 1)] None tt); CFree KBE (OIadd 0 1)] empty_world in
  snd (wcall 0 MS (BeOrbit 0 Trivial) (wrun 0 MS [CFree KBE (ONew [] None tt)] empty_world)) = Ok (KBE, 0%nat) /\
  sees w (KBE, 0%nat) = Some (val KBE (mkElt [([[1;2]] : bkey, 1)] 0 tt)).
Proof. exact @demo_alias_l. Qed.
