(** * A program using all classes: objects of the five classes of elements (C92)

    Model file.  The state of a program is one heap of objects for each
    class; [KTens] is the class [FreeModuleElement] itself, of the answers of
    [BarrattEcclesElement.diagonal].  A call names its operands by class and
    order of creation.  The static constructors ([SymmetricRing],
    [Surjection], [BarrattEccles], [Simplicial], [Cubical]) return new objects
    with their own attributes: they are covered by [ONew] of Heap.v. *)
From Verif Require Import PyBase Dict FreeModule Symmetric Simplicial Cubical Utils Surjection BarrattEccles Heap HeapApi.

Inductive klass := KRing | KSimp | KCub | KSurj | KBE | KTens.

(** basis elements, further attributes and overridden pieces of each class *)
Definition keyT (k : klass) : Type :=
  match k with KRing => skey | KSimp => skey2 | KCub => ckey2 | KSurj => list Z | KBE => bkey | KTens => list bkey end.
Definition attT (k : klass) : Type := match k with KSurj => conv | _ => unit end.
#[global] Instance keyI (k : klass) : PyKey (keyT k) :=
  match k as k return PyKey (keyT k) with
  | KRing => (_ : PyKey skey) | KSimp => (_ : PyKey skey2) | KCub => (_ : PyKey ckey2)
  | KSurj => (_ : PyKey (list Z)) | KBE => (_ : PyKey bkey) | KTens => (_ : PyKey (list bkey))
  end.
Definition clsT (k : klass) : pycls (keyT k) :=
  match k as k return pycls (keyT k) with
  | KRing => cls_ring | KSimp => cls_simplicial | KCub => cls_cubical
  | KSurj => cls_surj | KBE => cls_be | KTens => cls_free (list bkey)
  end.
Definition eltT (k : klass) : Type := elt (keyT k) (attT k).
Definition heapT (k : klass) : Type := @heap (keyT k) (attT k).

Definition ref : Type := klass * nat.
Definition world : Type := forall k, heapT k.
Definition upd (w : world) (k : klass) (h : heapT k) : world :=
  match k as k return heapT k -> world with
  | KRing => fun h k' => match k' with KRing => h | k'' => w k'' end
  | KSimp => fun h k' => match k' with KSimp => h | k'' => w k'' end
  | KCub => fun h k' => match k' with KCub => h | k'' => w k'' end
  | KSurj => fun h k' => match k' with KSurj => h | k'' => w k'' end
  | KBE => fun h k' => match k' with KBE => h | k'' => w k'' end
  | KTens => fun h k' => match k' with KTens => h | k'' => w k'' end
  end h.

Inductive call :=
| CFree (k : klass) (o : @op (keyT k) (attT k))
| RingMul (i j : nat) | RingPow (i : nat) (n : Z) | RingCompose (i j : nat) (position : Z)
| SimpBoundary (i : nat) | SimpAct (r i : nat) | SimpDiagonal (i : nat) (times coord : Z) | SimpReduced (i : nat)
| CubBoundary (i : nat) | CubAct (r i : nat) | CubDiagonal (i : nat) (times coord : Z) | CubJoin (i : nat)
| CubSerre (i : nat)
| SurjBoundary (i : nat) | SurjAct (r i : nat) | SurjOrbit (i : nat) (rep : repr)
| SurjCallSimp (s i : nat) (coord : Z) | SurjCallCub (s i : nat) (coord : Z)
| SurjCompose (i j : nat) (position : Z) | SurjSuspension (i : nat)
| BeBoundary (i : nat) | BeAct (r i : nat) | BeOrbit (i : nat) (rep : repr) | BeCompose (i j : nat) (position : Z)
| BeTable (i : nat) | BeDiagonal (i : nat) (r : Z)
| GroupSimp (g : list Z) (i : nat) | GroupCub (g : list Z) (i : nat)
| GroupSurj (g : list Z) (i : nat) | GroupBe (g : list Z) (i : nat).

Section World.
Variable dt : Z.      (* default_torsion *)
Variable dc : conv.   (* default_convention *)

Definition dattT (k : klass) : attT k := match k as k return attT k with KSurj => dc | KRing | KSimp | KCub | KBE | KTens => tt end.

(** a method running on the objects of one class *)
Definition on (k : klass) (m : @M (keyT k) (attT k) nat) (w : world) : world * res ref :=
  let (h, r) := m (w k) in
  (upd w k h, match r with Ok i => Ok (k, i) | Err e => Err e end).
(** an operand of another class is only read *)
Definition reading (k : klass) (i : nat) (f : eltT k -> world -> world * res ref) (w : world) : world * res ref :=
  match view (w k) i with Some e => f e w | None => (w, Err UnboundLocalError) end.

Definition wcall (c : call) : world -> world * res ref :=
  match c with
  | CFree k o => on k (hstep dt (dattT k) (clsT k) o)
  | RingMul i j => on KRing (h_ring_mul dt i j)
  | RingPow i n => on KRing (h_ring_pow dt i n)
  | RingCompose i j p => on KRing (h_ring_compose dt i j p)
  | SimpBoundary i => on KSimp (h_simp_boundary dt i)
  | SimpAct r i => reading KRing r (fun x => on KSimp (h_simp_act dt x i))
  | SimpDiagonal i t c => on KSimp (h_simp_iterated_diagonal dt i t c)
  | SimpReduced i => on KSimp (h_simp_one_reduced dt i)
  | CubBoundary i => on KCub (h_cub_boundary dt i)
  | CubAct r i => reading KRing r (fun x => on KCub (h_cub_act dt x i))
  | CubDiagonal i t c => on KCub (h_cub_iterated_diagonal dt i t c)
  | CubJoin i => on KCub (h_cub_join dt i)
  | CubSerre i => reading KCub i (fun x => on KSimp (h_cub_cartan_serre dt x))
  | SurjBoundary i => on KSurj (h_surj_boundary dt dc i)
  | SurjAct r i => reading KRing r (fun x => on KSurj (h_surj_act dt dc x i))
  | SurjOrbit i rep => on KSurj (h_surj_orbit dt dc i rep)
  | SurjCallSimp s i c => reading KSurj s (fun x => on KSimp (h_call_simplicial dt x i c))
  | SurjCallCub s i c => reading KSurj s (fun x => on KCub (h_call_cubical dt x i c))
  | SurjCompose i j p => on KSurj (h_surj_compose dt dc i j p)
  | SurjSuspension i => on KSurj (h_surj_suspension dt dc i)
  | BeBoundary i => on KBE (h_be_boundary dt i)
  | BeAct r i => reading KRing r (fun x => on KBE (h_be_act dt x i))
  | BeOrbit i rep => on KBE (h_be_orbit dt i rep)
  | BeCompose i j p => on KBE (h_be_compose dt i j p)
  | BeTable i => reading KBE i (fun x => on KSurj (h_be_table_reduction dt dc x))
  | BeDiagonal i r => reading KBE i (fun x => on KTens (h_be_diagonal dt x r))
  | GroupSimp g i => on KSimp (h_group_mul dt (h_simp_act dt) g i)
  | GroupCub g i => on KCub (h_group_mul dt (h_cub_act dt) g i)
  | GroupSurj g i => on KSurj (h_group_mul dt (h_surj_act dt dc) g i)
  | GroupBe g i => on KBE (h_group_mul dt (h_be_act dt) g i)
  end.

Definition empty_world : world := fun k => empty_heap.
(** a history of calls; the program catches exceptions and goes on *)
Definition wrun (cs : list call) (w : world) : world := fold_left (fun w c => fst (wcall c w)) cs w.

End World.
