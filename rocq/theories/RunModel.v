(* Model of prop_run, prop_run_multi and prop_execute_multi (falco/proper) *)
From Verif Require Import Base RBase StrBase CBase PropModel.
Open Scope R_scope.
(* arrays the prescription returns, by reference: prop_run changes them in place *)
Definition heap : Type := list (field C).
Definition hget (h : heap) (r : nat) : field C := nth r h (mkf 0 0 (fun _ _ => RtoC 0)).
Fixpoint hset (h : heap) (r : nat) (a : field C) : heap := match h, r with [], _ => [] | _ :: t, O => a :: t | x :: t, S k => x :: hset t k a end.
(* PASSVALUE: a dictionary *)
Definition pv : Type := list (string * R).
(* a prescription is called with the wavelength in metres, the grid size and, if given, PASSVALUE; it returns an array and its sampling *)
Definition prescription : Type := R -> Z -> option pv -> heap -> res (heap * nat * R).
(* falco/proper/prop_run.py:85-86, prop_run_multi.py:81-82: gridsize a Python integer *)
Definition bad_grid (n : Z) : bool := negb (Z.land n (n - 1) =? 0)%Z.
(* psf_ilam *= throughput[ilam] (149) *)
Definition fscale (t : R) (a : field C) : field C := mkf (frows a) (fcols a) (fun i j => Cmult (RtoC t) (fpx a i j)).
(* psf += psf_ilam (154): the shape of psf must stay; for arrays of one shape *)
Definition fadd (a b : field C) : res (field C) :=
  if (Nat.eqb (frows a) (frows b) && Nat.eqb (fcols a) (fcols b))%bool then Ok (mkf (frows a) (fcols a) (fun i j => Cplus (fpx a i j) (fpx b i j))) else Raise ValueError.
(* falco/proper/prop_run.py:130-157; psf: the array of the first wavelength and the last sampling.  Broadcasting is not modelled:
   arrays of two shapes raise *)
Fixpoint run_loop (f : prescription) (n : Z) (p : option pv) (rows : list (R * R)) (psf : option (nat * R)) (h : heap) : res (option (nat * R) * heap) :=
  match rows with
  | [] => Ok (psf, h)
  | (lam, thr) :: rest =>
    do out <- f lam n p h;
    let '(h1, r, s) := out in
    let h2 := hset h1 r (fscale thr (hget h1 r)) in
    match psf with
    | None => run_loop f n p rest (Some (r, s)) h2
    | Some (q, _) => do a <- fadd (hget h2 q) (hget h2 r); run_loop f n p rest (Some (q, s)) (hset h2 q a)
    end
  end.
(* the wavelength in microns, or the rows (wavelength, throughput) of a file *)
Inductive source : Type := Micron (lam : R) | Table (rows : list (R * R)).
(* falco/proper/prop_run.py:114-123.  np.loadtxt gives numbers, not arrays, for a file of one row: len(lam) (130) fails.  A file with
   no rows is not modelled *)
Definition rows_of (s : source) : res (list (R * R)) :=
  match s with
  | Micron l => Ok [(l * / 1000000, 1)]
  | Table [] => Raise OtherError
  | Table [_] => Raise TypeError
  | Table rows => Ok (map (fun lt => (fst lt * / 1000000, snd lt)) rows)
  end.
(* falco/proper/prop_run.py:85-166; imports, printing, timing and thread counts are left out *)
Definition prop_run (f : prescription) (s : source) (n : Z) (p : option pv) (h : heap) : res (field C * R * heap) :=
  if bad_grid n then Raise OtherError
  else
    do rows <- rows_of s;
    do out <- run_loop f n p rows None h;
    match out with (Some (q, sam), h') => Ok (hget h' q, sam, h') | (None, _) => Raise NameError end.
(* ---- prop_run_multi ---- *)
Inductive lams : Type := OneLam (l : R) | Lams (l : list R).
Inductive passv : Type := NoPass | OneDict (p : pv) | Dicts (l : list pv).
Definition lam_list (l : lams) : list R := match l with OneLam x => [x] | Lams x => x end.
Definition npass (p : passv) : nat := match p with NoPass => 0 | OneDict _ => 1 | Dicts l => length l end.
(* falco/proper/prop_run_multi.py:119-136: the parameters of process i; {} when there is no PASSVALUE *)
Definition param (l : list R) (p : passv) (i : nat) : res (R * pv) :=
  let nl := length l in let np := npass p in
  do lam <- match nth_error l (if (Nat.ltb 1 nl || Nat.eqb nl np)%bool then i else 0%nat) with Some x => Ok x | None => Raise IndexError end;
  do q <- match p with
    | NoPass => Ok []
    | OneDict d => Ok d
    | Dicts ds => match ds with [] => Ok [] | [d] => Ok d | _ => match nth_error ds i with Some d => Ok d | None => Raise IndexError end end
    end;
  Ok (lam, q).
Fixpoint params (l : list R) (p : passv) (is : list nat) : res (list (R * pv)) :=
  match is with [] => Ok [] | i :: r => do x <- param l p i; do xs <- params l p r; Ok (x :: xs) end.
(* falco/proper/prop_execute_multi.py:35-42: an empty dictionary is not passed on.  Every process has its own memory *)
Definition execute (f : prescription) (n : Z) (x : R * pv) : res (field C * R) :=
  do out <- prop_run f (Micron (fst x)) n (match snd x with [] => None | d => Some d end) [];
  Ok (fst out).
(* pool.map: the tasks end in any order, order; each result goes to the place of its task *)
Fixpoint collect {A} (done : list (nat * A)) (i : nat) : option A := match done with [] => None | (k, a) :: r => if Nat.eqb k i then Some a else collect r i end.
Fixpoint all_results {A} (done : list (nat * res A)) (is : list nat) : res (list A) :=
  match is with
  | [] => Ok []
  | i :: r => match collect done i with Some (Ok a) => do l <- all_results done r; Ok (a :: l) | Some (Raise x) => Raise x | None => Raise OtherError end
  end.
Definition pool_map {A B} (g : A -> res B) (xs : list A) (order : list nat) : res (list B) :=
  all_results (flat_map (fun i => match nth_error xs i with Some x => [(i, g x)] | None => [] end) order) (seq 0 (length xs)).
(* np.stack: arrays of one shape *)
Definition stackable (l : list (field C)) : bool := match l with [] => false | a :: r => forallb (fun b => Nat.eqb (frows a) (frows b) && Nat.eqb (fcols a) (fcols b))%bool r end.
(* falco/proper/prop_run_multi.py:81-161; ncpus: the keyword.  mp.Pool refuses a number below 1 *)
Definition prop_run_multi (f : prescription) (l : lams) (n : Z) (p : passv) (ncpus : option Z) (order : list nat) : res (list (field C) * list R) :=
  if bad_grid n then Raise OtherError
  else
    let ls := lam_list l in
    let nl := length ls in
    if (Nat.ltb 1 nl && Nat.ltb nl (npass p))%bool then Raise OtherError
    else
      let nel := Nat.max nl (npass p) in
      do xs <- params ls p (seq 0 nel);
      if match ncpus with Some k => (k <? 1)%Z | None => Nat.eqb nel 0 end then Raise ValueError
      else
        do out <- pool_map (execute f n) xs order;
        if stackable (map fst out) then Ok (map fst out, map snd out) else Raise ValueError.
