(** * comch/free_module/free_module.py

    Model file.  One generic model of [FreeModuleElement] and of the parts
    that its subclasses inherit.  The class-specific pieces are

    - [bad], the degeneracy test that the overridden [preferred_rep] of a
      subclass uses to send basis elements to 0 (it may raise: the surjection
      class calls [max(k)]);
    - [ckey], the conversion of keys made by the subclass constructor.

    [dt] is the class attribute [default_torsion] (line 26), which users may
    set (notebooks/basics.ipynb).  Attributes other than [torsion] (the
    [convention] of surjections) are kept in [attr].

    Simplification: elements are immutable values here; the sharing of
    [__dict__] made by [create] (line 307) is modelled in Heap.v. *)
From Verif Require Import PyBase Dict.

Record elt (K A : Type) := mkElt { data : dict K; torsion : Z; attr : A }.
Arguments mkElt {K A} _ _ _.
Arguments data {K A} _.
Arguments torsion {K A} _.
Arguments attr {K A} _.

Record pycls (K : Type) := mkCls { bad : K -> res bool; ckey : K -> K }.
Arguments mkCls {K} _ _.
Arguments bad {K} _ _.
Arguments ckey {K} _ _.

(** [FreeModuleElement] itself: no degenerate keys, keys unchanged. *)
Definition cls_free (K : Type) : pycls K := mkCls (fun _ => Ok false) (fun k => k).

Section FreeModule.
Context {K A : Type} `{PyKey K}.
Variable dt : Z.
Variable c : pycls K.

(** free_module.py:258-261, reduction of the coefficients. [Z.modulo] is
    Python's [%] (result has the sign of the divisor). *)
Definition reduce (t : Z) (d : dict K) : dict K :=
  if t =? 0 then d else map (fun p => (fst p, snd p mod t)) d.

(** free_module.py:264-266 *)
Definition strip (d : dict K) : dict K := filter (fun p => negb (snd p =? 0)) d.

(** The overridden part of [preferred_rep] in the subclasses
    (barratt_eccles.py:520-525, simplicial.py:520-522,
    surjection.py:742-751): coefficients of degenerate keys become 0 (the
    surjection class deletes some of them, which is what happens to all
    zeros at the end anyway). *)
Definition zero_bad (d : dict K) : res (dict K) :=
  mapM (fun p => let! b := bad c (fst p) in Ok (fst p, if b : bool then 0 else snd p)) d.

(** free_module.py:245-266 with the subclass prologue *)
Definition pref (t : Z) (d : dict K) : res (dict K) :=
  let! d' := zero_bad d in Ok (strip (reduce t d')).

(** Key conversion in subclass constructors, e.g. simplicial.py:249-253. *)
Definition convert (d : dict K) : dict K :=
  dict_of (map (fun p => (ckey c (fst p), snd p)) d).

(** free_module.py:30-53: [type(self)(data, torsion)]; [torsion=None] reads
    the class default. *)
Definition new (d : dict K) (t : option Z) (a : A) : res (elt K A) :=
  let t' := match t with Some t => t | None => dt end in
  let! d' := pref t' (convert d) in Ok (mkElt d' t' a).

(** free_module.py:286-309: first a new object with the class defaults, then
    the attributes of [self], then [preferred_rep] again. *)
Definition create (x : elt K A) (d : dict K) : res (elt K A) :=
  let! d1 := pref dt (convert d) in
  let! d2 := pref (torsion x) d1 in
  Ok (mkElt d2 (torsion x) (attr x)).

(** free_module.py:311-326 *)
Definition zero (x : elt K A) : res (elt K A) := create x [].

(** free_module.py:78-102 *)
Definition add (x y : elt K A) : res (elt K A) :=
  if negb (torsion x =? torsion y) then Err TypeError else
  let! answer := create x (data x) in
  let! d := pref (torsion x) (dupdate (data answer) (data y)) in
  Ok (mkElt d (torsion x) (attr x)).

(** free_module.py:104-128 *)
Definition sub (x y : elt K A) : res (elt K A) :=
  if negb (torsion x =? torsion y) then Err TypeError else
  let! answer := create x (data x) in
  let! d := pref (torsion x) (dsubtract (data answer) (data y)) in
  Ok (mkElt d (torsion x) (attr x)).

(** free_module.py:130-153, for an int [a] *)
Definition scale (a : Z) (x : elt K A) : res (elt K A) :=
  create x (map (fun p => (fst p, a * snd p)) (data x)).

(** free_module.py:185-199 *)
Definition neg (x : elt K A) : res (elt K A) := scale (-1) x.

(** free_module.py:201-221 *)
Definition iadd (x y : elt K A) : res (elt K A) :=
  if negb (torsion x =? torsion y) then Err TypeError else
  let! d := pref (torsion x) (dupdate (data x) (data y)) in
  Ok (mkElt d (torsion x) (attr x)).

(** free_module.py:223-243 *)
Definition isub (x y : elt K A) : res (elt K A) :=
  if negb (torsion x =? torsion y) then Err TypeError else
  let! d := pref (torsion x) (dsubtract (data x) (data y)) in
  Ok (mkElt d (torsion x) (attr x)).

(** free_module.py:268-284 *)
Definition set_torsion (x : elt K A) (t : Z) : res (elt K A) :=
  let! d := pref t (data x) in Ok (mkElt d t (attr x)).

(** Python's [pow(a, -1, n)] for [n > 0]: the inverse in [0, n), or
    [ValueError] when there is none.  Modelled by search. *)
Definition py_pow_inv (a n : Z) : res Z :=
  match find (fun i => ((a * i) mod n =? 1 mod n)) (zrange 0 n) with
  | Some i => Ok i
  | None => Err ValueError
  end.

(** free_module.py:155-183, for an int [a] *)
Definition truediv (x : elt K A) (a : Z) : res (elt K A) :=
  if torsion x =? 0 then Err TypeError else
  let! inv := py_pow_inv a (torsion x) in
  create x (map (fun p => (fst p, inv * snd p)) (data x)).

(** [x == y]: [Counter.__eq__], which ignores the attributes. *)
Definition elt_eqb (x y : elt K A) : bool := dict_eqb (data x) (data y).

(** free_module.py:55-56, [hash(frozenset(self))], for an arbitrary hash
    function of frozensets, i.e. a function of the set of keys: we represent
    the frozenset by the list of its keys up to reordering, see the hash
    theorem. *)
Definition hash_keys (x : elt K A) : list K := dkeys (data x).

(** The body [answer += self.create({k: v})] that most methods use. *)
Definition add_term (x answer : elt K A) (k : K) (v : Z) : res (elt K A) :=
  let! to_add := create x [(k, v)] in iadd answer to_add.

End FreeModule.
