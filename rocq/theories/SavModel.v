(* Model of PROPER's save-state system: prop_init_savestate, prop_savestate, prop_is_statesaved, prop_state, prop_end_savestate
   (falco/proper).  NumPy is the pinned release (requirements.txt: 2.1.3) *)
From Coq Require Import DecimalString.
From Verif Require Import Base RBase StrBase CBase PropModel PrpModel.
From Flocq Require Core.Raux.
Open Scope R_scope.
(* an entry of the working directory; Saved: an archive of np.savez with proper.total_original_pupil and the wavefront *)
Inductive entry : Type := Saved (total : R) (w : wavefront) | OtherFile | Subdir.
Definition dir : Type := list (string * entry).
Fixpoint dlookup (s : string) (d : dir) : option entry := match d with [] => None | (n, e) :: r => if String.eqb s n then Some e else dlookup s r end.
Fixpoint dwrite (s : string) (e : entry) (d : dir) : dir := match d with [] => [(s, e)] | (n, f) :: r => if String.eqb s n then (n, e) :: r else (n, f) :: dwrite s e r end.
(* the module variables of falco/proper/__init__.py:156-174 that the system uses *)
Record glob : Type := mkg { g_on : bool; g_lams : list R; g_file : string; g_total : R; g_n : nat; g_dir : dir }.
(* falco/proper/__init__.py:171-174: as imported, in the directory d *)
Definition imported (d : dir) : glob := mkg true [] "" 0 0 d.
Definition show_Z (z : Z) : string := NilEmpty.string_of_int (Z.to_int z).
(* str(int(wf.lamda*1.e15)) + proper.statefile, and the .npz that np.savez adds (falco/proper/prop_savestate.py:30-32, prop_state.py:41) *)
Definition state_name (g : glob) (lam : R) : string := (show_Z (Core.Raux.Ztrunc (lam * 10 ^ 15)) ++ g_file g ++ ".npz")%string.
(* falco/proper/prop_init_savestate.py:29-40; num: the number taken from the clock *)
Definition prop_init_savestate (num : nat) (g : glob) : glob :=
  mkg true [] ("_" ++ NilEmpty.string_of_uint (Nat.to_uint num) ++ "_prop_savestate")%string (g_total g) (g_n g) (g_dir g).
(* falco/proper/prop_is_statesaved.py:27-37 *)
Definition prop_is_statesaved (g : glob) (w : wavefront) : bool := existsb (fun l => if Req_EM_T l (w_lam w) then true else false) (g_lams g).
(* falco/proper/prop_savestate.py:27-34.  A directory of that name cannot be written *)
Definition prop_savestate (w : wavefront) (g : glob) : res unit * glob :=
  if negb (g_on g) then (Ok tt, g)
  else match dlookup (state_name g (w_lam w)) (g_dir g) with
    | Some Subdir => (Raise OtherError, g)
    | _ => (Ok tt, mkg (g_on g) (g_lams g ++ [w_lam w]) (g_file g) (g_total g) (g_n g) (dwrite (state_name g (w_lam w)) (Saved (g_total g) w) (g_dir g)))
    end.
(* falco/proper/prop_state.py:32-50.  The result is what the caller sees of its wavefront, which the local assignment of line 49
   does not change.  statedata["wf"] is an array of objects, which np.load refuses to unpickle by default: ValueError, after lines
   43-48 have set total_original_pupil and n *)
Definition prop_state (w : wavefront) (g : glob) : res wavefront * glob :=
  if negb (g_on g) then (Ok w, g)
  else if negb (prop_is_statesaved g w) then match prop_savestate w g with (Ok _, g') => (Ok w, g') | (Raise x, g') => (Raise x, g') end
  else
    let g0 := fun t => mkg (g_on g) (g_lams g) (g_file g) t 0 (g_dir g) in
    match dlookup (state_name g (w_lam w)) (g_dir g) with
    | Some (Saved t _) => (Raise ValueError, g0 t)
    | _ => (Raise OtherError, g0 0)
    end.
(* glob('*' + statefile): names that end so and do not start with a dot *)
Definition ends_with (s e : string) : bool := (Nat.leb (String.length e) (String.length s) && String.eqb (substring (String.length s - String.length e) (String.length e) s) e)%bool.
Definition globbed (e : string) (s : string) : bool := (ends_with s e && negb (prefix "." s))%bool.
(* falco/proper/prop_end_savestate.py:34-37: os.remove in the order of the directory; it refuses a directory *)
Fixpoint remove_all (e : string) (d : dir) : res unit * dir :=
  match d with
  | [] => (Ok tt, [])
  | (s, f) :: r =>
    if globbed e s then match f with Subdir => (Raise OtherError, d) | _ => remove_all e r end
    else let (x, r') := remove_all e r in (x, (s, f) :: r')
  end.
(* falco/proper/prop_end_savestate.py:29-37 *)
Definition prop_end_savestate (g : glob) : res unit * glob :=
  let (x, d) := remove_all (g_file g) (g_dir g) in (x, mkg false [] (g_file g) (g_total g) (g_n g) d).
(* a program: calls, and changes of total_original_pupil and n by the rest of the library (prop_begin, prop_define_entrance) *)
Inductive call : Type := Init (num : nat) | State (w : wavefront) | End | Elsewhere (total : R) (n : nat).
Definition step (g : glob) (c : call) : glob :=
  match c with
  | Init k => prop_init_savestate k g
  | State w => snd (prop_state w g)
  | End => snd (prop_end_savestate g)
  | Elsewhere t n => mkg (g_on g) (g_lams g) (g_file g) t n (g_dir g)
  end.
Definition run (g : glob) (l : list call) : glob := fold_left step l g.
