(** * Model of the tabulated DOS moments: gftool/lattice/*.py [dos_moment_coefficients] and [dos_moment]

    The literals are taken as exact rational numbers (the rounding of a decimal literal to a double, of [1/6] or of the
    product with the power of the half-bandwidth is not modelled).  The order is any integer; the python dictionary is an
    association list. *)
From Coq Require Import Reals QArith Qreals List ZArith.
From Verif Require Import Base.
Import ListNotations.
Local Open Scope R_scope.

Fixpoint lookup (t : list (Z * Q)) (m : Z) : option Q :=
  match t with
  | [] => None
  | (k, q) :: t => if Z.eqb k m then Some q else lookup t m
  end.
(** try: return dos_moment_coefficients[m] * half_bandwidth**m, except KeyError: raise NotImplementedError; all keys are
    non-negative, so the exponent is *)
Definition moment_general (t : list (Z * Q)) (m : Z) (D : R) : result R :=
  match lookup t m with
  | Some q => Ok (Q2R q * D ^ Z.to_nat m)
  | None => Err NotImplementedError
  end.
(** the same after: if m % 2: return 0 *)
Definition moment_symmetric (t : list (Z * Q)) (m : Z) (D : R) : result R :=
  if Z.eqb (m mod 2) 0 then moment_general t m D else Ok 0.

(** onedim.dos_moment_coefficients, lines 155-167 *)
Definition onedim_table : list (Z * Q) :=
  [(0%Z, 1); (2%Z, 0.5); (4%Z, 3 / 8); (6%Z, 5 / 16);
   (8%Z, 35 / 128); (10%Z, 63 / 256); (12%Z, 0.2255859375); (14%Z, 0.20947265625);
   (16%Z, 0.196380615234375); (18%Z, 0.185470581054687); (20%Z, 0.176197052001953)]%Q.
(** onedim.dos_moment, lines 197-203 *)
Definition onedim_dos_moment : Z -> R -> result R := moment_symmetric onedim_table.

(** square.dos_moment_coefficients, lines 161-172 *)
Definition square_table : list (Z * Q) :=
  [(2%Z, 0.25); (4%Z, 9/64); (6%Z, 25/256); (8%Z, (35/128)^2);
   (10%Z, (63/256)^2); (12%Z, 0.0508890151977539); (14%Z, 0.0438787937164307); (16%Z, 0.0385653460398316);
   (18%Z, 0.0343993364367634); (20%Z, 0.031045401134179)]%Q.
(** square.dos_moment, lines 202-208 *)
Definition square_dos_moment : Z -> R -> result R := moment_symmetric square_table.

(** sc.dos_moment_coefficients, lines 210-221 *)
Definition sc_table : list (Z * Q) :=
  [(2%Z, 1/6); (4%Z, 5/72); (6%Z, 0.039866255144032922); (8%Z, 0.026631087105624143);
   (10%Z, 0.01939193244170096); (12%Z, 0.014928527975706617); (14%Z, 0.011948953080810005); (16%Z, 0.0098437704453147492);
   (18%Z, 0.0082915600061680671); (20%Z, 0.0071083541490866967)]%Q.
(** sc.dos_moment, lines 251-257 *)
Definition sc_dos_moment : Z -> R -> result R := moment_symmetric sc_table.

(** bcc.dos_moment_coefficients, lines 167-178 *)
Definition bcc_table : list (Z * Q) :=
  [(2%Z, 1/8); (4%Z, 27/512); (6%Z, 5^3 / 2^12); (8%Z, 0.020444393157959);
   (10%Z, 0.0149039626121521); (12%Z, 0.0114798462018371); (14%Z, 0.00919140747282654); (16%Z, 0.0075734863820287);
   (18%Z, 0.00638006491682219); (20%Z, 0.00547010815806043)]%Q.
(** bcc.dos_moment, lines 208-214 *)
Definition bcc_dos_moment : Z -> R -> result R := moment_symmetric bcc_table.

(** fcc.dos_moment_coefficients, lines 191-213 *)
Definition fcc_table : list (Z * Q) :=
  [(0%Z, 1); (1%Z, 0); (2%Z, 3/16); (3%Z, 3/32);
   (4%Z, 135/1024); (5%Z, 135/1024); (6%Z, 0.1611328125); (7%Z, 0.1922607421875);
   (8%Z, 0.24070143699646); (9%Z, 0.305163860321045); (10%Z, 0.394462153315544); (11%Z, 0.516299419105052);
   (12%Z, 0.683690124191343); (13%Z, 0.913928582333027); (14%Z, 1.23181895411108); (15%Z, 1.67210463207448);
   (16%Z, 2.28395076888283); (17%Z, 3.13686893977359); (18%Z, 4.32941325997849); (19%Z, 6.00152324929046);
   (20%Z, 8.35226611969712)]%Q.
(** fcc.dos_moment, lines 243-247 *)
Definition fcc_dos_moment : Z -> R -> result R := moment_general fcc_table.

(** triangular.dos_moment_coefficients, lines 202-223 *)
Definition triangular_table : list (Z * Q) :=
  [(1%Z, 0); (2%Z, 8/27); (3%Z, 32/243); (4%Z, 160/729);
   (5%Z, 0.19509221155311685); (6%Z, 0.24567167380762861); (7%Z, 0.26975713202406278); (8%Z, 0.32595653452907584);
   (9%Z, 0.38409863242932391); (10%Z, 0.46646891718728872); (11%Z, 0.5662391742471257); (12%Z, 0.69580884826902741);
   (13%Z, 0.85849121900290751); (14%Z, 1.06625635837817); (15%Z, 1.32983322599435); (16%Z, 1.66594704229184);
   (17%Z, 2.09437852592774); (18%Z, 2.64177488421009); (19%Z, 3.34185798350861); (20%Z, 4.23865856734991)]%Q.
(** triangular.dos_moment, lines 253-257 *)
Definition triangular_dos_moment : Z -> R -> result R := moment_general triangular_table.

(** honeycomb.dos_moment_coefficients, lines 166-177 *)
Definition honeycomb_table : list (Z * Q) :=
  [(2%Z, 1/3); (4%Z, 5/27); (6%Z, 31/243); (8%Z, 71/729);
   (10%Z, 0.0787989635726261); (12%Z, 0.0661766781260761); (14%Z, 0.0570430207680627); (16%Z, 0.0501259782365305);
   (18%Z, 0.0447055266609815); (20%Z, 0.0403432070418971)]%Q.
(** honeycomb.dos_moment, lines 207-213 *)
Definition honeycomb_dos_moment : Z -> R -> result R := moment_symmetric honeycomb_table.

(** kagome.dos_moment_coefficients, lines 188-210 *)
Definition kagome_table : list (Z * Q) :=
  [(0%Z, 1); (1%Z, 0); (2%Z, 4/9); (3%Z, 4/27);
   (4%Z, 28/81); (5%Z, 20/81); (6%Z, 88/243); (7%Z, 0.358481938728852);
   (8%Z, 0.457857033988721); (9%Z, 0.518416907991668); (10%Z, 0.640552761266067); (11%Z, 0.766504654326632);
   (12%Z, 0.946076798741534); (13%Z, 1.16111979818393); (14%Z, 1.44297318255669); (15%Z, 1.79568687705621);
   (16%Z, 2.248655455081); (17%Z, 2.82371565536896); (18%Z, 3.55975081121742); (19%Z, 4.49985828877178);
   (20%Z, 5.70448609391951)]%Q.
(** kagome.dos_moment, lines 240-244 *)
Definition kagome_dos_moment : Z -> R -> result R := moment_general kagome_table.

(** lieb.dos_moment_coefficients, lines 172-184 *)
Definition lieb_table : list (Z * Q) :=
  [(0%Z, 1); (2%Z, 1/3); (4%Z, 5/24); (6%Z, 7/48);
   (8%Z, 0.110026041666667); (10%Z, 0.0875651041666667); (12%Z, 0.0724690755208333); (14%Z, 0.0617472330729167);
   (16%Z, 0.0537835756937663); (18%Z, 0.0476494630177816); (20%Z, 0.0427826742331187)]%Q.
(** lieb.dos_moment, lines 214-220 *)
Definition lieb_dos_moment : Z -> R -> result R := moment_symmetric lieb_table.

(** bethe.dos_moment_coefficients, lines 263-274 *)
Definition bethe_table : list (Z * Q) :=
  [(2%Z, 0.25); (4%Z, 0.125); (6%Z, 5/64); (8%Z, 7/128);
   (10%Z, 21/512); (12%Z, 0.0322265625); (14%Z, 0.02618408203125); (16%Z, 0.021820068359375);
   (18%Z, 0.01854705810546875); (20%Z, 0.016017913818359375)]%Q.
(** bethe.dos_moment, lines 304-310 *)
Definition bethe_dos_moment : Z -> R -> result R := moment_symmetric bethe_table.

