(* Model of src/enumo/workload.rs (term level; to_egraph is in EGraph files) *)
From Verif Require Import Base Lines Sexp Reader Pattern Filter.

(* src/enumo/workload.rs:9-14 *)
Inductive workload : Type :=
| WSet (l : list sexp)
| WPlug (w : workload) (name : string) (pegs : workload)
| WFilter (f : filter) (w : workload)
| WAppend (ws : list workload).

(* src/enumo/workload.rs:23-33 *)
Definition wnew (vals : list string) : res workload :=
  let* l := rmapM sexp_from_str vals in Val (WSet l).

(* src/enumo/workload.rs:35-37 *)
Definition wempty : workload := WSet [].

(* src/enumo/workload.rs:94-118 *)
Fixpoint force (w : workload) : res (list sexp) :=
  match w with
  | WSet l => Val l
  | WPlug w name pegs =>
      let* ps := force pegs in
      let* ts := force w in
      Val (flat_map (plug name ps) ts)
  | WFilter f w => let* ts := force w in rfilter (test f) ts
  | WAppend ws => let* tss := rmapM force ws in Val (concat tss)
  end.

(* src/enumo/workload.rs:167-176 *)
Fixpoint wfilter (w : workload) (f : filter) : workload :=
  match w with
  | WPlug w1 name pegs =>
      if is_monotonic f
      then WFilter f (WPlug w1 name (wfilter pegs f))
      else WFilter f (WPlug w1 name pegs)
  | WFilter g w1 => wfilter w1 (fand g f)
  | _ => WFilter f w
  end.

(* src/enumo/workload.rs:126-134 *)
Definition wplug (w : workload) (name : string) (pegs : workload) : res workload :=
  match pegs with
  | WSet [] => let* p := pattern_from_str name in Val (wfilter w (Excludes p))
  | _ => Val (WPlug w name pegs)
  end.

(* src/enumo/workload.rs:136-165 *)
Definition wappend (a b : workload) : workload :=
  match a, b with
  | WSet xs, WSet ys => WSet (xs ++ ys)
  | WAppend xs, WAppend ys => WAppend (xs ++ ys)
  | WAppend xs, y => WAppend (xs ++ [y])
  | x, WAppend ys => WAppend (ys ++ [x])
  | x, y => WAppend [x; y]
  end.

(* src/enumo/workload.rs:39-45: the content of the written file, one printed
   term per line *)
Definition to_file (w : workload) : res string :=
  let* ts := force w in Val (unlines (map display ts)).

(* src/enumo/workload.rs:47-55: every line of the file is parsed *)
Definition from_file (content : string) : res workload :=
  let* ts := rmapM sexp_from_str (lines content) in Val (WSet ts).
