(** Model of the loading and saving of pulsars: tim-file lengths, the working
    directory, distances and feather tables (enterprise/pulsar.py L51-93,
    L666-859). *)
From Coq Require Import Ascii String Bool Arith List.
From Verif Require Import PyBase.
Import ListNotations.
Open Scope string_scope.
Open Scope list_scope.

(** * Tim files *)

(** Whitespace of [str.split()] (ASCII). *)
Definition is_space (c : ascii) : bool :=
  let n := nat_of_ascii c in (Nat.leb 9 n && Nat.leb n 13) || (Nat.leb 28 n && Nat.leb n 32).
(** [s.split()]: [w] is the word read so far. *)
Fixpoint words (w : string) (s : string) : list string :=
  match s with
  | EmptyString => if String.eqb w "" then [] else [w]
  | String c s' => if is_space c then (if String.eqb w "" then words "" s' else w :: words "" s')
                   else words (append w (String c EmptyString)) s'
  end.
(** [s.split()[-1]] *)
Definition last_word (s : string) : result string :=
  match rev (words "" s) with w :: _ => Ok w | [] => Err IndexError end.
(** [bool(s.rstrip("\n"))]: some character is not a newline *)
Fixpoint not_blank (s : string) : bool :=
  match s with EmptyString => false | String c s' => negb (Ascii.eqb c (ascii_of_nat 10)) || not_blank s' end.
Definition starts_with (p s : string) : bool := String.prefix p s.
Definition total (l : list nat) : nat := fold_right Nat.add 0 l.

(** L51-68 [get_maxobs]: [fs] gives the lines of the files that can be opened,
    [fuel] is the number of nested calls python allows. *)
Fixpoint get_maxobs (fs : string -> option (list string)) (fuel : nat) (timfile : string) : result nat :=
  match fuel with
  | 0 => Err RecursionError
  | S fuel' =>
      match fs timfile with
      | None => Err IOError
      | Some flines =>
          let lines := filter (fun ln => negb (starts_with "C" ln)) flines in
          if existsb (substring_of "INCLUDE") lines
          then rmap total (rmapM (fun ln => rbind (last_word ln) (get_maxobs fs fuel')) (filter (substring_of "INCLUDE") lines))
          else Ok (length (filter not_blank lines))
      end
  end.

(** * Distances *)

(** L74-91 [_get_pdist]: [pdict] is the table of distances. *)
Section Distance.
Context {D : Type}.
Variable default : D.
Definition pdist (pdict : list (string * D)) (name : string) : result D :=
  match name with
  | EmptyString => Err IndexError
  | String c _ =>
      if negb (Ascii.eqb c "J" || Ascii.eqb c "B") then
        match dget string_dec pdict (append "J" name) with
        | Some d => Ok d
        | None => match dget string_dec pdict (append "B" name) with Some d => Ok d | None => Ok default end
        end
      else match dget string_dec pdict name with Some d => Ok d | None => Ok default end
  end.
End Distance.

(** * Loading *)

(** Computations that may raise and may change the working directory. *)
Definition io (X : Type) : Type := string -> result X * string.
Definition ret {X} (x : X) : io X := fun d => (Ok x, d).
Definition raise {X} (e : exn) : io X := fun d => (Err e, d).
Definition bind {X Y} (m : io X) (f : X -> io Y) : io Y :=
  fun d => match m d with (Ok x, d') => f x d' | (Err e, d') => (Err e, d') end.
(** [try: m finally: f]; an exception of [f] replaces the outcome. *)
Definition finally {X} (m : io X) (f : io unit) : io X :=
  fun d => let (r, d') := m d in match f d' with (Ok _, d'') => (r, d'') | (Err e, d'') => (Err e, d'') end.

(** Arguments of the factory: strings, PINT's TOAs and timing model, a tempo2
    pulsar, anything else. *)
Inductive arg := AStr (s : string) | AToas | AModel | ATempo | AOther.

(** [s.split(c)] with the piece [w] read so far. *)
Fixpoint split_from (c : ascii) (w : string) (s : string) : list string :=
  match s with
  | EmptyString => [w]
  | String x s' => if Ascii.eqb x c then w :: split_from c "" s' else split_from c (append w (String x EmptyString)) s'
  end.
Definition split_on (c : ascii) (s : string) : list string := split_from c "" s.
Definition last_piece (l : list string) : string := match rev l with x :: _ => x | [] => "" end.
Definition ends_with (e s : string) : bool :=
  Nat.leb (String.length e) (String.length s) && String.eqb (String.substring (String.length s - String.length e) (String.length e) s) e.
(** [str.lower] (ASCII) *)
Fixpoint lower (s : string) : string :=
  match s with
  | EmptyString => ""
  | String c s' => let n := nat_of_ascii c in
      String (if Nat.leb 65 n && Nat.leb n 90 then ascii_of_nat (n + 32) else c) (lower s')
  end.

Section Load.
Context {P : Type}.
(** Which packages are installed. *)
Variables has_pint has_t2 : bool.
(** [os.path.isfile], [os.chdir] (the new directory, if it can be entered), and
    everything that is called on the way, as arbitrary programs. *)
Variable isfile : string -> string -> bool.
Variable enter : string -> string -> option string.
Variable dir_of : string -> string.
Variable read_feather : string -> io P.
Variable get_count : io nat.
Variable tempo_load : nat -> io unit.
Variable pint_load : option string -> io unit.
Variables (from_pint from_tempo new_tempo new_pint : io P).

Definition chdir (d : string) : io unit :=
  fun cwd => match enter cwd d with Some c => (Ok tt, c) | None => (Err IOError, cwd) end.
Definition getcwd : io string := fun d => (Ok d, d).

Definition is_toas (a : arg) := match a with AToas => true | _ => false end.
Definition is_model (a : arg) := match a with AModel => true | _ => false end.
Definition is_tempo (a : arg) := match a with ATempo => true | _ => false end.
Definition strings (f : string -> bool) (l : list arg) : list string :=
  flat_map (fun a => match a with AStr s => if f s then [s] else [] | _ => [] end) l.
Definition ext (s : string) : string := last_piece (split_on "." s).

(** L772-859, the factory [Pulsar] with the keywords that decide what is
    called; an empty [filepath] counts as none. *)
Definition load (args : list arg) (filepath timing_package clk bipm : option string) : io P :=
  match strings (ends_with ".feather") args with
  | f :: _ => read_feather f
  | [] =>
  match (match filepath with Some "" => None | x => x end) with
  | Some f => read_feather f
  | None =>
  let timing_package := option_map lower timing_package in
  let parfile := strings (fun s => String.eqb (ext s) "par") args in
  let timfile := strings (fun s => String.eqb (ext s) "tim" || String.eqb (ext s) "toa") args in
  if has_pint && existsb is_toas args && existsb is_model args then from_pint
  else if has_t2 && existsb is_tempo args then from_tempo
  else match parfile, timfile with
  | par :: _, tim :: _ =>
      bind getcwd (fun cwd0 =>
      if negb (isfile cwd0 par) || negb (isfile cwd0 tim) then raise IOError else
      let dirname := dir_of tim in
      bind (match timing_package with
            | Some t => ret t
            | None => if has_t2 then ret "tempo2" else if has_pint then ret "pint" else raise ValueError
            end) (fun package =>
      bind getcwd (fun cwd =>
      finally
        (bind (chdir dirname) (fun _ =>
         if String.eqb (lower package) "tempo2" then
           if negb has_t2 then raise ValueError else
           bind get_count (fun n => bind (tempo_load (n + 100)) (fun _ => new_tempo))
         else if String.eqb (lower package) "pint" then
           if negb has_pint then raise ValueError else
           bind (match clk, bipm with
                 | Some c, None => match split_on "(" c with
                                   | _ :: v :: _ => ret (Some (String.substring 0 (String.length v - 1) v))
                                   | _ => raise IndexError end
                 | _, _ => ret bipm end) (fun bipm =>
           bind (pint_load bipm) (fun _ => bind (chdir cwd) (fun _ => new_pint)))
         else raise ValueError))
        (chdir cwd))))
  | _, _ => raise ValueError
  end end end.
End Load.

(** * Feather tables *)
Section Feather.
(** Contents of a column; values of the metadata after JSON. *)
Context {C J : Type}.

(** The arrays of a pulsar in time order: vectors by columns, the planet tensor
    by rows of columns. *)
Record arrays := Arrays {
  a_columns : list (string * C);
  a_vectors : list (string * list C);
  a_planets : list (list C);
  a_flags : list (string * C);
  a_name : string;
  a_meta : list (string * J);
  a_noise : option (list (string * J)) }.

(** L667-671 *)
Definition columns : list string := ["toas"; "stoas"; "toaerrs"; "residuals"; "freqs"; "backend_flags"; "telescope"].
Definition vector_columns : list string := ["Mmat"; "sunssb"; "pos_t"].
Definition metadata : list string := ["name"; "dm"; "dmx"; "pdist"; "pos"; "phi"; "theta"].

Definition number {X} (l : list X) : list (nat * X) := combine (seq 0 (length l)) l.
Definition vector_items (vc : string * list C) : list (string * C) :=
  map (fun ic => (append (fst vc) (append "_" (str_of_nat (fst ic))), snd ic)) (number (snd vc)).
Definition tensor_items (name : string) (rows : list (list C)) : list (string * C) :=
  flat_map (fun ir => map (fun jc => (append name (append "_" (append (str_of_nat (fst ir)) (append "_" (str_of_nat (fst jc))))), snd jc))
                          (number (snd ir))) (number rows).
Definition flag_items (fs : list (string * C)) : list (string * C) := map (fun kv => (append "flags_" (fst kv), snd kv)) fs.
(** L733-754: the columns of the table *)
Definition pydict (p : arrays) : list (string * C) :=
  dupdate string_dec (dupdate string_dec (dupdate string_dec (a_columns p) (flat_map vector_items (a_vectors p)))
    (tensor_items "planetssb" (a_planets p))) (flag_items (a_flags p)).

Record table := Table { t_cols : list (string * C); t_meta : list (string * J); t_noise : option (list (string * J)) }.
(** L733-769 [save_feather]: [Pulsar.metadata] (L757) is looked up on the factory
    function, which has no such attribute. *)
Definition save_feather (p : arrays) : result table :=
  let cols := pydict p in
  rbind (A := list string) (Err AttributeError) (fun names =>
  Ok (Table cols (filter (fun kv => existsb (String.eqb (fst kv)) names) (a_meta p)) None)).
(** What it would write if the list of the class were used; L764-767: only the
    noise values whose name starts with the name of the pulsar. *)
Definition save_with (names : list string) (p : arrays) : table :=
  Table (pydict p)
    (flat_map (fun n => match dget string_dec (a_meta p) n with Some v => [(n, v)] | None => [] end) names)
    (match a_noise p with
     | Some ((_ :: _) as d) => Some (filter (fun kv => starts_with (a_name p) (fst kv)) d)
     | _ => None end).

Definition keys_with (pre : string) (t : table) : list string := filter (starts_with pre) (dkeys (t_cols t)).
Definition col (t : table) (k : string) : result C := dgetE string_dec (t_cols t) k.
(** [np.array([...]).swapaxes(...)] of columns of one length: no columns give an
    array of too few dimensions. *)
Definition stack (l : list C) : result (list C) := match l with [] => Err ValueError | _ => Ok l end.
(** Rows of different lengths cannot be stacked. *)
Definition stack2 (l : list (list C)) : result (list (list C)) :=
  match l with
  | [] => Err ValueError
  | r :: l' => if forallb (fun r' => Nat.eqb (length r') (length r)) l' then (if Nat.eqb (length r) 0 then Err ValueError else Ok l) else Err ValueError
  end.
(** ["_".join(c.split("_")[:-1])] and ["_".join(c.split("_")[1:])] *)
Definition all_but_last (s : string) : string := join_us (removelast (split_on "_" s)).
Definition all_but_first (s : string) : string := join_us (tl (split_on "_" s)).
(** L690-727 [read_feather] *)
Definition read_feather (t : table) : result (list (string * C) * list (string * list C) * list (list C) * list (string * C) * list (string * J) * option (list (string * J))) :=
  let base := flat_map (fun n => match dget string_dec (t_cols t) n with Some c => [(n, c)] | None => [] end) columns in
  rbind (rmapM (fun v => rbind (rmapM (col t) (keys_with v t)) (fun cs => rmap (pair v) (stack cs))) vector_columns) (fun vectors =>
  let rows := isort sle (nodup string_dec (map all_but_last (keys_with "planetssb" t))) in
  rbind (rbind (rmapM (fun r => rmapM (col t) (keys_with r t)) rows) stack2) (fun planets =>
  rbind (rmapM (fun k => rmap (pair (all_but_first k)) (col t k)) (keys_with "flags_" t)) (fun flags =>
  let flags := dupdate string_dec [] flags in
  let meta := flat_map (fun n => match dget string_dec (t_meta t) n with Some v => [(n, v)] | None => [] end) metadata in
  Ok (base, vectors, planets, flags, meta, t_noise t)))).
End Feather.
Arguments arrays : clear implicits.
Arguments table : clear implicits.
