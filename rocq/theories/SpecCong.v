(** * Specification: what "equal" elements are *)
From Verif Require Import PyBase Dict FreeModule Spec.

(** Two elements that Python considers equal ([==]) and that belong to the
    same module: same torsion and same other attributes (convention). *)
Definition equal_elts {K A} `{PyKey K} (x y : elt K A) : Prop := elt_eqb x y = true /\ torsion y = torsion x /\ attr y = attr x.
