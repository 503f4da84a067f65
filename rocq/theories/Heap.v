(** * Object-level model of free_module.py, for aliasing (C08).

    Model file.  An element is an object of class [FreeModuleElement]: a
    [Counter] (its own items) plus a reference to an attribute dictionary
    [__dict__], holding [torsion] and the other attributes.  [create]
    (free_module.py:307) makes the new object share the attribute dictionary
    of [self].  Every method below performs the reads and writes of the
    source in the same order, on a heap; when an exception is raised, the
    writes done before it stay. *)
From Verif Require Import PyBase Dict FreeModule.

Section Heap.
Context {K A : Type} `{PyKey K}.
Variable dt : Z.      (* default_torsion *)
Variable dA : A.      (* other attributes set by the constructor's defaults *)
Variable c : pycls K.

Record obj := mkObj { items : dict K; dref : nat }.
Record heap := mkHeap { objs : list obj; atts : list (Z * A) }.

Definition M (X : Type) := heap -> heap * res X.
Definition ret {X} (x : X) : M X := fun h => (h, Ok x).
Definition raise {X} (e : exn) : M X := fun h => (h, Err e).
Definition mbind {X Y} (m : M X) (f : X -> M Y) : M Y :=
  fun h => let (h', r) := m h in match r with Ok x => f x h' | Err e => (h', Err e) end.
Notation "'do!' x := m 'in' k" := (mbind m (fun x => k))
  (at level 200, x pattern, m at level 100, k at level 200, right associativity).

(** replacement of the [n]-th entry of a list *)
Fixpoint lset {X} (l : list X) (n : nat) (a : X) : list X :=
  match l, n with
  | [], _ => []
  | _ :: l', O => a :: l'
  | b :: l', S n' => b :: lset l' n' a
  end.

(** reading a variable: the object, its items, its attributes *)
Definition get_obj (i : nat) : M obj := fun h =>
  match nth_error (objs h) i with Some o => (h, Ok o) | None => (h, Err UnboundLocalError) end.
Definition get_attrs (i : nat) : M (Z * A) :=
  do! o := get_obj i in fun h =>
  match nth_error (atts h) (dref o) with Some a => (h, Ok a) | None => (h, Err AttributeError) end.
Definition set_items (i : nat) (d : dict K) : M unit :=
  do! o := get_obj i in fun h => (mkHeap (lset (objs h) i (mkObj d (dref o))) (atts h), Ok tt).
(** [self.__dict__ = r] *)
Definition set_ref (i : nat) (r : nat) : M unit :=
  do! o := get_obj i in fun h => (mkHeap (lset (objs h) i (mkObj (items o) r)) (atts h), Ok tt).
(** [setattr(self, 'torsion', t)]: writes into the attribute dictionary *)
Definition set_attr_torsion (i : nat) (t : Z) : M unit :=
  do! o := get_obj i in fun h =>
  match nth_error (atts h) (dref o) with
  | Some a => (mkHeap (objs h) (lset (atts h) (dref o) (t, snd a)), Ok tt)
  | None => (h, Err AttributeError)
  end.
(** a new object with a new attribute dictionary *)
Definition alloc (d : dict K) (a : Z * A) : M nat := fun h =>
  (mkHeap (objs h ++ [mkObj d (length (atts h))]) (atts h ++ [a]), Ok (length (objs h))).

(** free_module.py:245-266 *)
Definition h_preferred_rep (i : nat) : M unit :=
  do! o := get_obj i in
  do! a := get_attrs i in
  match pref c (fst a) (items o) with
  | Ok d => set_items i d
  | Err e => raise e
  end.

(** free_module.py:30-53 *)
Definition h_new (d : dict K) (t : option Z) (a : A) : M nat :=
  do! i := alloc (convert c d) (match t with Some t => t | None => dt end, a) in
  do! _ := h_preferred_rep i in
  ret i.

(** free_module.py:286-309 *)
Definition h_create (self : nat) (d : dict K) : M nat :=
  do! i := h_new d None dA in
  do! o := get_obj self in
  do! _ := set_ref i (dref o) in
  do! _ := h_preferred_rep i in
  ret i.

(** free_module.py:311-326 *)
Definition h_zero (self : nat) : M nat := do! _ := get_obj self in h_create self [].

(** free_module.py:78-102 *)
Definition h_add (self other : nat) : M nat :=
  do! a := get_attrs self in
  do! b := get_attrs other in
  if negb (fst a =? fst b) then raise TypeError else
  do! o := get_obj self in
  do! i := h_create self (items o) in
  do! ans := get_obj i in
  do! p := get_obj other in
  do! _ := set_items i (dupdate (items ans) (items p)) in
  do! _ := h_preferred_rep i in
  ret i.
(** free_module.py:104-128 *)
Definition h_sub (self other : nat) : M nat :=
  do! a := get_attrs self in
  do! b := get_attrs other in
  if negb (fst a =? fst b) then raise TypeError else
  do! o := get_obj self in
  do! i := h_create self (items o) in
  do! ans := get_obj i in
  do! p := get_obj other in
  do! _ := set_items i (dsubtract (items ans) (items p)) in
  do! _ := h_preferred_rep i in
  ret i.
(** free_module.py:130-153 *)
Definition h_scale (n : Z) (self : nat) : M nat :=
  do! o := get_obj self in
  h_create self (map (fun p => (fst p, n * snd p)) (items o)).
(** free_module.py:185-199 *)
Definition h_neg (self : nat) : M nat := h_scale (-1) self.
(** free_module.py:155-183 *)
Definition h_truediv (self : nat) (n : Z) : M nat :=
  do! a := get_attrs self in
  if fst a =? 0 then raise TypeError else
  match py_pow_inv n (fst a) with
  | Err e => raise e
  | Ok inv =>
      do! o := get_obj self in
      h_create self (map (fun p => (fst p, inv * snd p)) (items o))
  end.
(** free_module.py:201-221 *)
Definition h_iadd (self other : nat) : M nat :=
  do! a := get_attrs self in
  do! b := get_attrs other in
  if negb (fst a =? fst b) then raise TypeError else
  do! o := get_obj self in
  do! p := get_obj other in
  do! _ := set_items self (dupdate (items o) (items p)) in
  do! _ := h_preferred_rep self in
  ret self.
(** free_module.py:223-243 *)
Definition h_isub (self other : nat) : M nat :=
  do! a := get_attrs self in
  do! b := get_attrs other in
  if negb (fst a =? fst b) then raise TypeError else
  do! o := get_obj self in
  do! p := get_obj other in
  do! _ := set_items self (dsubtract (items o) (items p)) in
  do! _ := h_preferred_rep self in
  ret self.
(** free_module.py:268-284 *)
Definition h_set_torsion (self : nat) (t : Z) : M nat :=
  do! _ := set_attr_torsion self t in
  do! _ := h_preferred_rep self in
  ret self.

(** A program history: each operation names objects by the order of their
    creation. *)
Inductive op :=
| ONew (d : dict K) (t : option Z) (a : A)
| OCreate (i : nat) (d : dict K)
| OZero (i : nat)
| OAdd (i j : nat)
| OSub (i j : nat)
| OScale (n : Z) (i : nat)
| ONeg (i : nat)
| ODiv (i : nat) (n : Z)
| OIadd (i j : nat)
| OIsub (i j : nat)
| OSetTorsion (i : nat) (t : Z).

Definition hstep (o : op) : M nat :=
  match o with
  | ONew d t a => h_new d t a
  | OCreate i d => do! _ := get_obj i in h_create i d
  | OZero i => h_zero i
  | OAdd i j => h_add i j
  | OSub i j => h_sub i j
  | OScale n i => h_scale n i
  | ONeg i => h_neg i
  | ODiv i n => h_truediv i n
  | OIadd i j => h_iadd i j
  | OIsub i j => h_isub i j
  | OSetTorsion i t => h_set_torsion i t
  end.

(** What the program sees of the object [i]. *)
Definition view (h : heap) (i : nat) : option (elt K A) :=
  match nth_error (objs h) i with
  | None => None
  | Some o => match nth_error (atts h) (dref o) with
              | None => None
              | Some a => Some (mkElt (items o) (fst a) (snd a))
              end
  end.

Definition empty_heap : heap := mkHeap [] [].
(** state after a history; exceptions are caught by the program and the
    history goes on *)
Definition hrun (ops : list op) (h : heap) : heap := fold_left (fun h o => fst (hstep o h)) ops h.

End Heap.
