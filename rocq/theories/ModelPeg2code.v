(** Model of src/peg/peg2code.rs: the crate's PEG description of PEG grammars.
    Generated by tools/gen_pegrules.py from the source text. *)
From Verif Require Import Base.

(** src/peg/peg2code.rs:25-112 [text_peg2code]. *)
Definition text_peg2code : str := s_ "
    /*      A peg grammar to parse peg grammars
     *
     */

    main            =   grammar

    grammar         =   (rule  /  module)+
    
    module          =   _  mod_name _ '{'  _ grammar  _ '}' _eol _
    mod_name        =   symbol
    symbol          =   [_a-zA-Z0-9] [_'""a-zA-Z0-9]*

    rule            =   _  rule_name  _  '='  _  expr  _eol _
    rule_name       =   '.'?  symbol  ('.' symbol)*

    expr            =   or

    or              =   and         ( _  '/'  _  or )?
    error           =   'error' _  '('  _  literal  _  ')'

    and             =   error 
                    /   rep_or_neg  ( _1 _ !(rule_name _ ('=' / '{')) and )*
    _1              =   (' ' / eol)     //  this is the and separator

    rep_or_neg      =   atom_or_par ('*' / '+' / '?')?
                    /   '!' atom_or_par

    atom_or_par     =   (atom / parenth)

    parenth         =   '('  _  expr  _  (  ')'
                                         /  error(""unbalanced parethesis: missing ')'"") 
                                         )

    atom            =   literal
                    /   match
                    /   rule_name
                    /   dot             //  as rule_name can start with a '.', dot has to be after rule_name

    literal         =  lit_noesc  /  lit_esc

    lit_noesc       =   _'   (  !_' .  )*   _'
    _'              =   ""'""

    lit_esc         =   _""
                            (   esc_char
                            /   hex_char
                            /   !_"" .
                            )*
                        _""
    _""              =   '""'

    esc_char        =   '\r'
                    /   '\n'
                    /   '\t'
                    /   '\\'
                    /   '\""'

    hex_char        =   '\0x' [0-9A-F] [0-9A-F]

    eol             =   (""\r\n""  /  ""\n""  /  ""\r"")
    _eol            =   (' ' / comment)*  eol

    match           =   '['
                            (
                                (mchars  mbetween*)
                                / mbetween+
                            )
                        ']'

    mchars          =   (!']' !(. '-') .)+
    mbetween        =   (.  '-'  .)

    dot             =   '.'

    _               =   (  ' '
                        /   eol
                        /   comment
                        )*

    comment         =   line_comment
                    /   mline_comment

    line_comment    =   '//' (!eol .)*  eol
    mline_comment   =   '/*' (!'*/' .)* '*/'
    ".
