(** * Methods that [FreeModuleElement] inherits from [collections.Counter]

    Model file.  free_module.py:4 declares [class FreeModuleElement(Counter)],
    and no class of comch overrides the methods below, so they run the code of
    CPython's Lib/collections/__init__.py (3.10 - 3.13), which is modelled here
    on the data of an element.  Not modelled: arguments that are not elements
    (plain iterables), subclasses of the classes of comch. *)
From Verif Require Import PyBase Dict FreeModule Symmetric Simplicial Cubical Surjection BarrattEccles.

Section Inherited.
Context {K A : Type} `{PyKey K}.
Variable dt : Z. (** the class attribute [default_torsion] (free_module.py:26) *)
Variable c : pycls K.

(** [Counter.copy]: [return self.__class__(self)]; [Counter.__reduce__], used by
    [copy.copy], [copy.deepcopy] and [pickle]: [(self.__class__, (dict(self),))].
    All of them call the constructor with the data only, so the torsion and the
    other attributes are the defaults: free_module.py:48-53; [a0] is the default
    of the other attributes (surjection.py:80-82: the convention). *)
Definition copied (a0 : A) (x : elt K A) : res (elt K A) := new dt c (data x) None a0.

(** [Counter.update] and [Counter.subtract] called by the user (not through
    [+=] and [-=]): no [preferred_rep]. *)
Definition updated (x y : elt K A) : elt K A := mkElt (dupdate (data x) (data y)) (torsion x) (attr x).
Definition subtracted (x y : elt K A) : elt K A := mkElt (dsubtract (data x) (data y)) (torsion x) (attr x).

(** [elem in d] *)
Definition dmem (d : dict K) (k : K) : bool := existsb (fun k' => keqb k' k) (dkeys d).

(** [Counter.__pos__], [+x]: a plain [Counter] *)
Definition counter_pos (d : dict K) : dict K :=
  fold_left (fun r p => if 0 <? snd p then dset r (fst p) (snd p) else r) d [].

(** [Counter.__or__], [x | y]: a plain [Counter] *)
Definition counter_or (d e : dict K) : dict K :=
  let r := fold_left (fun r p =>
    let other_count := dget e (fst p) in
    let newcount := if snd p <? other_count then other_count else snd p in
    if 0 <? newcount then dset r (fst p) newcount else r) d [] in
  fold_left (fun r p => if negb (dmem d (fst p)) && (0 <? snd p) then dset r (fst p) (snd p) else r) e r.

(** [Counter.__and__], [x & y]: a plain [Counter] *)
Definition counter_and (d e : dict K) : dict K :=
  fold_left (fun r p =>
    let other_count := dget e (fst p) in
    let newcount := if snd p <? other_count then snd p else other_count in
    if 0 <? newcount then dset r (fst p) newcount else r) d [].

(** [Counter.total]: [sum(self.values())] *)
Definition counter_total (d : dict K) : Z := zsum (map snd d).

(** [Counter.__le__], [__lt__], [__ge__], [__gt__] (Python >= 3.10):
    [all(self[e] <= other[e] for c in (self, other) for e in c)];
    [self <= other and self != other]; and the same with [>=]. *)
Definition counter_le (d e : dict K) : bool :=
  forallb (fun k => dget d k <=? dget e k) (dkeys d ++ dkeys e).
Definition counter_ge (d e : dict K) : bool :=
  forallb (fun k => dget e k <=? dget d k) (dkeys d ++ dkeys e).
Definition counter_lt (d e : dict K) : bool := counter_le d e && negb (dict_eqb d e).
Definition counter_gt (d e : dict K) : bool := counter_ge d e && negb (dict_eqb d e).

(** [Counter._keep_positive] *)
Definition keep_positive (d : dict K) : dict K := filter (fun p => 0 <? snd p) d.
(** [Counter.__ior__], [x |= y]: in place, so the class, the torsion and the
    other attributes of [x] are kept *)
Definition ior (x y : elt K A) : elt K A :=
  mkElt (keep_positive (fold_left (fun d p =>
           let count := dget d (fst p) in
           if count <? snd p then dset d (fst p) (snd p) else d) (data y) (data x))) (torsion x) (attr x).
(** [Counter.__iand__], [x &= y]: in place *)
Definition iand (x y : elt K A) : elt K A :=
  mkElt (keep_positive (fold_left (fun d p =>
           let other_count := dget (data y) (fst p) in
           if other_count <? snd p then dset d (fst p) other_count else d) (data x) (data x))) (torsion x) (attr x).

(** [Counter.elements]: [chain.from_iterable(starmap(repeat, self.items()))] *)
Definition counter_elements (d : dict K) : list K :=
  flat_map (fun p => repeat (fst p) (Z.to_nat (snd p))) d.
End Inherited.

(** surjection.py:80-83 with the arguments of [__reduce__]: [dc] is the class
    attribute [default_convention] *)
Definition surj_copied (dt : Z) (dc : conv) (x : surj) : res surj := copied dt cls_surj dc x.
