(** * Property theorems.  Generated by tools/mkprop.py from the tagged lemmas of
    FreeModuleLaws.v: every theorem is closed by [exact]. *)
From Coq Require Import Znumtheory Sorting.Sorted.
From Verif Require Import PyBase Dict FreeModule Spec FreeModuleLaws.

(** Whatever the data and the torsion (or the class
    default), a constructed element is canonical. *)
Theorem C01_constructor : forall {K A} `{KeyOk K} (c : pycls K) (dt : Z) (d : dict K) (ot : option Z) (a : A) (x : elt K A),
  cls_ok c -> 0 <= match ot with Some t => t | None => dt end ->
  new dt c d ot a = Ok x -> wf c x.
Proof. exact @C01_constructor_l. Qed.
Print Assumptions C01_constructor.

(** [x.create(d)] is canonical, for any data [d]. *)
Theorem C01_create : forall {K A} `{KeyOk K} (c : pycls K) (dt : Z) (x y : elt K A) (d : dict K),
  cls_ok c -> 0 <= dt -> 0 <= torsion x -> create dt c x d = Ok y -> wf c y.
Proof. exact @C01_create_l. Qed.
Print Assumptions C01_create.

(** Sums, differences, multiples, negatives, quotients, in
    place sums and differences, changes of torsion and [zero()] of canonical
    elements are canonical (whenever they return, whatever [default_torsion]). *)
Theorem C01_operations : forall {K A} `{KeyOk K} (c : pycls K) (dt : Z) (x y z : elt K A) (n : Z),
  cls_ok c -> 0 <= dt -> wf c x -> wf c y -> 
  (add dt c x y = Ok z \/ sub dt c x y = Ok z \/ scale dt c n x = Ok z \/ neg dt c x = Ok z \/
   truediv dt c x n = Ok z \/ iadd c x y = Ok z \/ isub c x y = Ok z \/ zero dt c x = Ok z \/
   (0 <= n /\ set_torsion c x n = Ok z)) -> wf c z.
Proof. exact @C01_operations_l. Qed.
Print Assumptions C01_operations.

Theorem C02_add_assoc : forall {K A} `{KeyOk K} (c : pycls K) (dt : Z) (x y z : elt K A),
  cls_ok c -> wf c x -> wf c y -> wf c z -> torsion y = torsion x -> torsion z = torsion x ->
  attr y = attr x -> dt_ok dt (torsion x) ->
  same (let! s := add dt c x y in add dt c s z) (let! s := add dt c y z in add dt c x s).
Proof. exact @C02_add_assoc_l. Qed.
Print Assumptions C02_add_assoc.

Theorem C02_add_comm : forall {K A} `{KeyOk K} (c : pycls K) (dt : Z) (x y : elt K A),
  cls_ok c -> wf c x -> wf c y -> torsion y = torsion x -> attr y = attr x -> dt_ok dt (torsion x) ->
  same (add dt c x y) (add dt c y x).
Proof. exact @C02_add_comm_l. Qed.
Print Assumptions C02_add_comm.

(** [x + x.zero() == x == x.zero() + x], and [zero()] is empty. *)
Theorem C02_add_zero : forall {K A} `{KeyOk K} (c : pycls K) (dt : Z) (x : elt K A),
  cls_ok c -> wf c x -> dt_ok dt (torsion x) ->
  same (let! o := zero dt c x in add dt c x o) (Ok x) /\
  same (let! o := zero dt c x in add dt c o x) (Ok x) /\
  zero dt c x = Ok (mkElt [] (torsion x) (attr x)).
Proof. exact @C02_add_zero_l. Qed.
Print Assumptions C02_add_zero.

Theorem C02_sub_add_neg : forall {K A} `{KeyOk K} (c : pycls K) (dt : Z) (x y : elt K A),
  cls_ok c -> wf c x -> wf c y -> torsion y = torsion x -> dt_ok dt (torsion x) ->
  same (sub dt c x y) (let! n := neg dt c y in add dt c x n).
Proof. exact @C02_sub_add_neg_l. Qed.
Print Assumptions C02_sub_add_neg.

Theorem C02_sub_self : forall {K A} `{KeyOk K} (c : pycls K) (dt : Z) (x : elt K A),
  cls_ok c -> wf c x -> dt_ok dt (torsion x) ->
  same (sub dt c x x) (zero dt c x) /\ same (let! n := neg dt c x in add dt c x n) (zero dt c x).
Proof. exact @C02_sub_self_l. Qed.
Print Assumptions C02_sub_self.

(** [+=] and [-=] compute what [+] and [-] compute. *)
Theorem C02_inplace : forall {K A} `{KeyOk K} (c : pycls K) (dt : Z) (x y : elt K A),
  cls_ok c -> wf c x -> wf c y -> torsion y = torsion x -> dt_ok dt (torsion x) ->
  same (iadd c x y) (add dt c x y) /\ same (isub c x y) (sub dt c x y).
Proof. exact @C02_inplace_l. Qed.
Print Assumptions C02_inplace.

(** The coefficient of every basis element in [x + y],
    [x - y], [-x], [n * x] is the sum, ... of the coefficients in Z/t. *)
Theorem C02_coefficients : forall {K A} `{KeyOk K} (c : pycls K) (dt : Z) (x y : elt K A) (n : Z),
  cls_ok c -> wf c x -> wf c y -> torsion y = torsion x -> dt_ok dt (torsion x) ->
  exists s d m i, add dt c x y = Ok s /\ sub dt c x y = Ok d /\ scale dt c n x = Ok m /\ neg dt c x = Ok i /\
    forall k, let t := torsion x in
      (t | dget (data s) k - (dget (data x) k + dget (data y) k)) /\
      (t | dget (data d) k - (dget (data x) k - dget (data y) k)) /\
      (t | dget (data m) k - n * dget (data x) k) /\
      (t | dget (data i) k + dget (data x) k).
Proof. exact @C02_coefficients_l. Qed.
Print Assumptions C02_coefficients.

Theorem C03_module_laws : forall {K A} `{KeyOk K} (c : pycls K) (dt : Z) (x y : elt K A) (a b : Z),
  cls_ok c -> wf c x -> wf c y -> torsion y = torsion x -> dt_ok dt (torsion x) ->
  same (scale dt c (a * b) x) (let! z := scale dt c b x in scale dt c a z) /\
  same (scale dt c (a + b) x) (let! p := scale dt c a x in let! q := scale dt c b x in add dt c p q) /\
  same (let! s := add dt c x y in scale dt c a s)
       (let! p := scale dt c a x in let! q := scale dt c a y in add dt c p q) /\
  same (scale dt c 1 x) (Ok x) /\
  same (scale dt c 0 x) (zero dt c x) /\
  same (scale dt c (torsion x) x) (zero dt c x) /\
  same (scale dt c (-1) x) (neg dt c x).
Proof. exact @C03_module_laws_l. Qed.
Print Assumptions C03_module_laws.

(** For torsion [t > 0]: when [n] is coprime to [t], [x / n]
    returns the unique element [y] with [n * y == x]; otherwise [ValueError]. *)
Theorem C04_division : forall {K A} `{KeyOk K} (c : pycls K) (dt : Z) (x : elt K A) (n : Z),
  cls_ok c -> wf c x -> 0 < torsion x -> dt_ok dt (torsion x) ->
  (rel_prime n (torsion x) ->
     exists y, truediv dt c x n = Ok y /\ wf c y /\ torsion y = torsion x /\
       same (scale dt c n y) (Ok x) /\
       forall z, wf c z -> torsion z = torsion x -> attr z = attr x -> same (scale dt c n z) (Ok x) ->
         elt_eqb z y = true) /\
  (~ rel_prime n (torsion x) -> truediv dt c x n = Err ValueError).
Proof. exact @C04_division_l. Qed.
Print Assumptions C04_division.

Theorem C04_division_torsion_zero : forall {K A} `{KeyOk K} (c : pycls K) (dt : Z) (x : elt K A) (n : Z),
  torsion x = 0 -> truediv dt c x n = Err TypeError.
Proof. exact @C04_division_torsion_zero_l. Qed.
Print Assumptions C04_division_torsion_zero.

Theorem C05_torsion_mismatch : forall {K A} `{KeyOk K} (c : pycls K) (dt : Z) (x y : elt K A),
  torsion x <> torsion y ->
  add dt c x y = Err TypeError /\ sub dt c x y = Err TypeError /\
  iadd c x y = Err TypeError /\ isub c x y = Err TypeError.
Proof. exact @C05_torsion_mismatch_l. Qed.
Print Assumptions C05_torsion_mismatch.

(** [==] holds exactly when all coefficients agree. *)
Theorem C06_equality : forall {K A} `{KeyOk K} (x y : elt K A),
  elt_eqb x y = true <-> (forall k, dget (data x) k = dget (data y) k).
Proof. exact @C06_equality_l. Qed.
Print Assumptions C06_equality.

(** Equal canonical elements have the same set of keys up to key
    equality, so any hash of the frozenset of keys agrees. *)
Theorem C06_hash : forall {K A} `{KeyOk K} (c : pycls K) (x y : elt K A),
  wf c x -> wf c y -> elt_eqb x y = true ->
  (forall (T : Type) (hash : list K -> T),
     (* a hash of frozensets: invariant under reordering and under replacing
        keys by equal keys *)
     (forall l l', Permutation l l' -> hash l = hash l') ->
     (forall l l', Forall2 (fun a b => keqb a b = true) l l' -> hash l = hash l') ->
     hash (hash_keys x) = hash (hash_keys y)).
Proof. exact @C06_hash_l. Qed.
Print Assumptions C06_hash.

(** [set_torsion(n)] replaces every coefficient by its residue. *)
Theorem C07_set_torsion : forall {K A} `{KeyOk K} (c : pycls K) (x : elt K A) (n : Z),
  cls_ok c -> wf c x -> 0 <= n ->
  exists y, set_torsion c x n = Ok y /\ wf c y /\ torsion y = n /\ attr y = attr x /\
    forall k, dget (data y) k = if n =? 0 then dget (data x) k else dget (data x) k mod n.
Proof. exact @C07_set_torsion_l. Qed.
Print Assumptions C07_set_torsion.

(** Reducing commutes with sums, differences and
    multiples (from Z, or from Z/t to Z/t' with t' | t). *)
Theorem C07_reduction_is_additive : forall {K A} `{KeyOk K} (c : pycls K) (dt : Z) (x y : elt K A) (n a : Z),
  cls_ok c -> wf c x -> wf c y -> torsion y = torsion x -> dt_ok dt (torsion x) -> dt_ok dt n ->
  0 <= n -> (n | torsion x) ->
  same (let! s := add dt c x y in set_torsion c s n)
       (let! p := set_torsion c x n in let! q := set_torsion c y n in add dt c p q) /\
  same (let! s := sub dt c x y in set_torsion c s n)
       (let! p := set_torsion c x n in let! q := set_torsion c y n in sub dt c p q) /\
  same (let! s := scale dt c a x in set_torsion c s n)
       (let! p := set_torsion c x n in scale dt c a p).
Proof. exact @C07_reduction_is_additive_l. Qed.
Print Assumptions C07_reduction_is_additive.

(** Reducing mod n and then mod m is reducing mod m when m | n. *)
Theorem C07_iterated : forall {K A} `{KeyOk K} (c : pycls K) (x : elt K A) (n m : Z),
  cls_ok c -> wf c x -> 0 <= n -> 0 <= m -> (m | n) ->
  same (let! y := set_torsion c x n in set_torsion c y m) (set_torsion c x m).
Proof. exact @C07_iterated_l. Qed.
Print Assumptions C07_iterated.

(** For two values of [default_torsion] compatible with
    the torsion of the elements (0, or a multiple of it), all operations
    compute the same elements. *)
Theorem C09_independence : forall {K A} `{KeyOk K} (c : pycls K) (dt dt' : Z) (x y : elt K A) (n : Z) (d : dict K),
  cls_ok c -> wf c x -> wf c y -> torsion y = torsion x -> dt_ok dt (torsion x) -> dt_ok dt' (torsion x) ->
  same (add dt c x y) (add dt' c x y) /\ same (sub dt c x y) (sub dt' c x y) /\
  same (scale dt c n x) (scale dt' c n x) /\ same (neg dt c x) (neg dt' c x) /\
  (kdistinct (dkeys d) -> (forall k, In k (dkeys d) -> exists b, bad c k = Ok b) ->
   same (create dt c x d) (create dt' c x d)).
Proof. exact @C09_independence_l. Qed.
Print Assumptions C09_independence.

(** With [default_torsion = 2], adding zero to the element
    [a] of torsion 3 with coefficient 2 loses it. *)
Theorem C09_refuted : exists (dt : Z) (x : elt Z unit),
  wf (cls_free Z) x /\ torsion x = 3 /\
  ~ same (add dt (cls_free Z) x x) (add 0 (cls_free Z) x x).
Proof. exact @C09_refuted_l. Qed.
Print Assumptions C09_refuted.
