(* Reference notions for C79: the solids that the test learns from. *)
From Verif Require Import Base Sexp.
Open Scope string_scope.
Open Scope list_scope.

Definition vec3 (x y z : sexp) : sexp := Lst [Atom "Vec3"; x; y; z].
Definition lit (z : string) : sexp := Lst [Atom "Lit"; Atom z].
Definition vectors : list sexp :=
  [vec3 (lit "0") (lit "0") (lit "0"); vec3 (lit "1") (lit "1") (lit "1");
   vec3 (Atom "a") (Atom "a") (Atom "a"); vec3 (Atom "a") (Atom "b") (Atom "c"); vec3 (Atom "d") (Atom "e") (Atom "f")] ++
  (* three operations, each with its own operator *)
  let bops := ["+"; "*"; "/"] in let op o x y := Lst [Atom "op"; Atom o; Atom x; Atom y] in
  flat_map (fun o1 => flat_map (fun o2 => map (fun o3 => vec3 (op o1 "a" "d") (op o2 "b" "e") (op o3 "c" "f")) bops) bops) bops.
(* a variable; primitive solids; solids with one more transformation *)
Definition primitives : list sexp :=
  map (fun v => Lst [Atom "Cube"; v; Atom "false"]) vectors ++ map (fun v => Lst [Atom "Cylinder"; v; Atom "params"; Atom "true"]) vectors ++
  map (fun x => Lst [Atom "Sphere"; x; Atom "params"]) [Atom "a"; lit "1"].
Definition transformed (l : list sexp) : list sexp :=
  flat_map (fun t => flat_map (fun v => map (fun x => Lst [Atom t; v; x]) l) vectors) ["Scale"; "Trans"].
Fixpoint solids (n : nat) : list sexp :=
  match n with
  | 0 => []
  | S 0 => [Atom "s"]
  | S n => Atom "s" :: primitives ++ transformed (solids n)
  end.
