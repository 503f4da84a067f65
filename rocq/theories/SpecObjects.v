(** * Specification: what calls do to objects (C92)

    An object is seen as a value of its class: items, torsion and, for
    surjections, convention.  [expected] is the value a call has to produce
    from the values of its operands, [owner] the operand whose attributes the
    answer shares. *)
From Verif Require Import PyBase Dict FreeModule Symmetric Simplicial Cubical Utils Surjection BarrattEccles GroupMul Heap World.

(** a value of some class *)
Definition value : Type := {k : klass & eltT k}.
Definition val (k : klass) (e : eltT k) : value := existT eltT k e.

(** what the program sees of the object [q] *)
Definition sees (w : world) (q : ref) : option value :=
  match view (w (fst q)) (snd q) with Some e => Some (val (fst q) e) | None => None end.

(** the objects a call works on *)
Definition operands (c : call) : list ref :=
  match c with
  | CFree k o => match o with
                 | ONew _ _ _ => []
                 | OCreate i _ | OZero i | OScale _ i | ONeg i | ODiv i _ | OSetTorsion i _ => [(k, i)]
                 | OAdd i j | OSub i j | OIadd i j | OIsub i j => [(k, i); (k, j)]
                 end
  | RingMul i j | RingCompose i j _ => [(KRing, i); (KRing, j)]
  | RingPow i _ => [(KRing, i)]
  | SimpBoundary i | SimpDiagonal i _ _ | SimpReduced i | GroupSimp _ i => [(KSimp, i)]
  | SimpAct r i => [(KRing, r); (KSimp, i)]
  | CubBoundary i | CubDiagonal i _ _ | CubJoin i | CubSerre i | GroupCub _ i => [(KCub, i)]
  | CubAct r i => [(KRing, r); (KCub, i)]
  | SurjBoundary i | SurjOrbit i _ | SurjSuspension i | GroupSurj _ i => [(KSurj, i)]
  | SurjAct r i => [(KRing, r); (KSurj, i)]
  | SurjCallSimp s i _ => [(KSurj, s); (KSimp, i)]
  | SurjCallCub s i _ => [(KSurj, s); (KCub, i)]
  | SurjCompose i j _ => [(KSurj, i); (KSurj, j)]
  | BeBoundary i | BeOrbit i _ | BeTable i | BeDiagonal i _ | GroupBe _ i => [(KBE, i)]
  | BeAct r i => [(KRing, r); (KBE, i)]
  | BeCompose i j _ => [(KBE, i); (KBE, j)]
  end.
Definition alive (w : world) (q : ref) : Prop := sees w q <> None.

(** the object changed by [x += y], [x -= y] *)
Definition in_place (c : call) (q : ref) : Prop :=
  match c with CFree k (OIadd i _) | CFree k (OIsub i _) => q = (k, i) | _ => False end.
Definition sets_torsion (c : call) : Prop :=
  match c with CFree _ (OSetTorsion _ _) => True | _ => False end.

Section Expected.
Variable dt : Z.
Variable w : world.

(** the value of an operand *)
Definition opd (k : klass) (i : nat) : res (eltT k) :=
  match view (w k) i with Some e => Ok e | None => Err UnboundLocalError end.
Definition gives (k : klass) (r : res (eltT k)) : res value := let! e := r in Ok (val k e).

(** the value of the answer of a call *)
Definition expected (c : call) : res value :=
  match c with
  | CFree k o => gives k (
      match o with
      | ONew d t a => new dt (clsT k) d t a
      | OCreate i d => let! x := opd k i in create dt (clsT k) x d
      | OZero i => let! x := opd k i in zero dt (clsT k) x
      | OAdd i j => let! x := opd k i in let! y := opd k j in add dt (clsT k) x y
      | OSub i j => let! x := opd k i in let! y := opd k j in sub dt (clsT k) x y
      | OScale n i => let! x := opd k i in scale dt (clsT k) n x
      | ONeg i => let! x := opd k i in neg dt (clsT k) x
      | ODiv i n => let! x := opd k i in truediv dt (clsT k) x n
      | OIadd i j => let! x := opd k i in let! y := opd k j in iadd (clsT k) x y
      | OIsub i j => let! x := opd k i in let! y := opd k j in isub (clsT k) x y
      | OSetTorsion i t => let! x := opd k i in set_torsion (clsT k) x t
      end)
  | RingMul i j => gives KRing (let! x := opd KRing i in let! y := opd KRing j in ring_mul dt x y)
  | RingPow i n => gives KRing (let! x := opd KRing i in ring_pow dt x n)
  | RingCompose i j p => gives KRing (let! x := opd KRing i in let! y := opd KRing j in ring_compose dt x y p)
  | SimpBoundary i => gives KSimp (let! x := opd KSimp i in simp_boundary dt x)
  | SimpAct r i => gives KSimp (let! g := opd KRing r in let! x := opd KSimp i in simp_act dt g x)
  | SimpDiagonal i t c => gives KSimp (let! x := opd KSimp i in simp_iterated_diagonal dt x t c)
  | SimpReduced i => gives KSimp (let! x := opd KSimp i in simp_one_reduced dt x)
  | CubBoundary i => gives KCub (let! x := opd KCub i in cub_boundary dt x)
  | CubAct r i => gives KCub (let! g := opd KRing r in let! x := opd KCub i in cub_act dt g x)
  | CubDiagonal i t c => gives KCub (let! x := opd KCub i in cub_iterated_diagonal dt x t c)
  | CubJoin i => gives KCub (let! x := opd KCub i in cub_join dt x)
  | CubSerre i => gives KSimp (let! x := opd KCub i in cub_cartan_serre dt x)
  | SurjBoundary i => gives KSurj (let! x := opd KSurj i in surj_boundary dt x)
  | SurjAct r i => gives KSurj (let! g := opd KRing r in let! x := opd KSurj i in surj_act dt g x)
  | SurjOrbit i rep => gives KSurj (let! x := opd KSurj i in surj_orbit dt x rep)
  | SurjCallSimp s i c => gives KSimp (let! x := opd KSurj s in let! y := opd KSimp i in surj_call_simplicial dt x y c)
  | SurjCallCub s i c => gives KCub (let! x := opd KSurj s in let! y := opd KCub i in surj_call_cubical dt x y c)
  | SurjCompose i j p => gives KSurj (let! x := opd KSurj i in let! y := opd KSurj j in surj_compose dt x y p)
  | SurjSuspension i => gives KSurj (let! x := opd KSurj i in surj_suspension dt x)
  | BeBoundary i => gives KBE (let! x := opd KBE i in be_boundary dt x)
  | BeAct r i => gives KBE (let! g := opd KRing r in let! x := opd KBE i in be_act dt g x)
  | BeOrbit i rep => gives KBE (let! x := opd KBE i in be_orbit dt x rep)
  | BeCompose i j p => gives KBE (let! x := opd KBE i in let! y := opd KBE j in be_compose dt x y p)
  | BeTable i => gives KSurj (let! x := opd KBE i in be_table_reduction dt x)
  | BeDiagonal i r => gives KTens (let! x := opd KBE i in be_diagonal dt x r)
  | GroupSimp g i => gives KSimp (let! x := opd KSimp i in group_mul_simp dt g x)
  | GroupCub g i => gives KCub (let! x := opd KCub i in group_mul_cub dt g x)
  | GroupSurj g i => gives KSurj (let! x := opd KSurj i in group_mul_surj dt g x)
  | GroupBe g i => gives KBE (let! x := opd KBE i in group_mul_be dt g x)
  end.

(** [x.join()], [x.suspension()] and, for Barratt-Eccles elements,
    [x.orbit()] return [x] itself when [x] is zero *)
Definition is_zero (k : klass) (i : nat) : bool := match view (w k) i with Some e => dempty (data e) | None => false end.
Definition returns_itself (c : call) : option ref :=
  match c with
  | CubJoin i => if is_zero KCub i then Some (KCub, i) else None
  | SurjSuspension i => if is_zero KSurj i then Some (KSurj, i) else None
  | BeOrbit i _ => if is_zero KBE i then Some (KBE, i) else None
  | CFree k (OIadd i _) | CFree k (OIsub i _) | CFree k (OSetTorsion i _) => Some (k, i)
  | _ => None
  end.

(** the operand whose attributes the answer shares; [None]: the answer has
    attributes of its own *)
Definition owner (c : call) : option ref :=
  match c with
  | CFree k o => match o with
                 | ONew _ _ _ => None
                 | OCreate i _ | OZero i | OScale _ i | ONeg i | ODiv i _ | OSetTorsion i _
                 | OAdd i _ | OSub i _ | OIadd i _ | OIsub i _ => Some (k, i)
                 end
  | RingMul i _ | RingCompose i _ _ => Some (KRing, i)
  | RingPow i n => if n =? 0 then None else Some (KRing, i)
  | SimpBoundary i | SimpDiagonal i _ _ | SimpReduced i | GroupSimp _ i
  | SimpAct _ i | SurjCallSimp _ i _ => Some (KSimp, i)
  | CubBoundary i | CubDiagonal i _ _ | CubJoin i | GroupCub _ i
  | CubAct _ i | SurjCallCub _ i _ => Some (KCub, i)
  | SurjBoundary i | SurjOrbit i _ | SurjSuspension i | GroupSurj _ i
  | SurjAct _ i | SurjCompose i _ _ => Some (KSurj, i)
  | BeBoundary i | GroupBe _ i | BeAct _ i | BeCompose i _ _ => Some (KBE, i)
  | BeOrbit i _ => if is_zero KBE i then Some (KBE, i) else None
  | CubSerre _ | BeTable _ | BeDiagonal _ _ => None
  end.
End Expected.

(** ** Families of objects that share their attributes

    [fam s p]: the family of the object [p] made in the history; an answer
    joins the family of its owner or starts a new one.  Objects that no
    variable of the program can name (temporaries) have no family. *)
Record hist := mkHist { now : world; fam : ref -> option nat; families : nat }.
Definition klass_eqb (a b : klass) : bool :=
  match a, b with
  | KRing, KRing | KSimp, KSimp | KCub, KCub | KSurj, KSurj | KBE, KBE | KTens, KTens => true
  | _, _ => false
  end.
Definition ref_eqb (p q : ref) : bool := klass_eqb (fst p) (fst q) && Nat.eqb (snd p) (snd q).
Definition assign (f : ref -> option nat) (q : ref) (a : option nat) : ref -> option nat :=
  fun p => if ref_eqb p q then a else f p.
Definition hist_step (dt : Z) (dc : conv) (s : hist) (c : call) : hist :=
  let (w', r) := wcall dt dc c (now s) in
  match r, returns_itself (now s) c, owner (now s) c with
  | Ok q, None, Some o => mkHist w' (assign (fam s) q (fam s o)) (families s)
  | Ok q, None, None => mkHist w' (assign (fam s) q (Some (families s))) (S (families s))
  | _, _, _ => mkHist w' (fam s) (families s)
  end.
Definition hist_run (dt : Z) (dc : conv) (cs : list call) : hist :=
  fold_left (hist_step dt dc) cs (mkHist empty_world (fun _ => None) 0%nat).

Definition with_torsion (v : value) (t : Z) : value :=
  match v with existT _ k e => val k (mkElt (data e) t (attr e)) end.
