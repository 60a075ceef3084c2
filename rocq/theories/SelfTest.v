(** * SelfTest: the test TestPDP7CompilerB (examples_test.go:98-138)
    The compiler of the model compiles the historical B compiler examples/b.b;
    the result, run on the machine of Suite.v with its own source as input, must
    write exactly the text of examples/b.pdp7, and does. This takes some ten million
    steps; the check is made whenever this file is compiled and
    leaves no proof behind. By [result_sound] of Suite.v it is a fact about the
    model: there are a module, a memory and a run of the process as there. *)
From Coq Require Import List Ascii String ZArith Bool.
From Verif Require Import Base Process Exec Suite.
Import ListNotations.
Open Scope Z_scope.
(** examples/b.b *)
Definition b_b : list ascii := list_ascii_of_string "/* b.b - B compiler for PDP-7 Unix

   Coding style and organization based on lastc1120c.c

   (C) 2016 Robert Swierczek, GPL3

   To compile the compiler with b.c:
      gcc -Wno-multichar b.c -o b
      ./b b.b b.s
      perl as7 --out b.out bl.s b.s bi.s

   To compile hello.b:
      perl a7out b.out hello.b hello.s
      perl as7 --out h.out bl.s hello.s bi.s
      perl a7out h.out

   To compile the compiler with itself:
      perl a7out b.out b.b b2.s
      perl as7 --out b2.out bl.s b2.s bi.s
*/

main() {
  extrn symtab, eof, ns;

  while (!eof) {
    ns = &symtab[51];
    extdef();
    blkend();
  }
}

lookup() {
  extrn symtab, symbuf, eof, ns;
  auto np, sp, rp;

  rp = symtab;
  while (rp < ns) {
    np = &rp[2];
    sp = symbuf;
    while (*np==*sp) {
      if (!*np)
        return(rp);
      np = &np[1];
      sp = &sp[1];
    }
    while (*np)
      np = &np[1];
    rp = &np[1];
  }
  sp = symbuf;
  if (ns >= &symtab[290]) {
    error('sf');
    eof = 1;
    return(rp);
  }
  *ns = 0;
  ns[1] = 0;
  ns = &ns[2];
  while (*ns = *sp) {
    ns = &ns[1];
    sp = &sp[1];
  }
  ns = &ns[1];
  return(rp);
}

symbol() {
  extrn symbuf, ctab, peeksym, peekc, eof, line, csym, cval;
  auto b, c, ct, sp;

  if (peeksym>=0) {
    c = peeksym;
    peeksym = -1;
    return(c);
  }
  if (peekc) {
    c = peekc;
    peekc = 0;
  } else {
    if (eof)
      return(0);
    c = read();
  }
loop:
  ct = ctab[c];

  if (ct==0) { /* eof */
    eof = 1;
    return(0);
  }

  if (ct==126) { /* white space */
    if (c=='*n')
      line = line+1;
    c = read();
    goto loop;
  }

  if (c=='=')
    return(subseq('=',80,60));

  if (c=='<')
    return(subseq('=',63,62));

  if (c=='>')
    return(subseq('=',65,64));

  if (c=='!')
    return(subseq('=',34,61));

  if (c=='$') {
    if (subseq('(',0,1))
      return(2);
    if (subseq(')',0,1))
      return(3);
  }
  if (c=='/') {
    if (subseq('**',1,0))
      return(43);
com:
    c = read();
com1:
    if (c==4) {
      eof = 1;
      error('**/'); /* eof */
      return(0);
    }
    if (c=='*n')
      line = line+1;
    if (c!='**')
      goto com;
    c = read();
    if (c!='/')
      goto com1;
    c = read();
    goto loop;
  }
  if (ct==124) { /* number */
    cval = 0;
    if (c=='0')
      b = 8;
    else
      b = 10;
    while(c >= '0' & c <= '9') {
      cval = cval*b + c -'0';
      c = read();
    }
    peekc = c;
    return(21);
  }
  if (c=='*'') { /* ' */
    getcc();
    return(21);
  }
  if (ct==123) { /* letter */
    sp = symbuf;
    while(ct==123 | ct==124) {
      if (sp < &symbuf[9]) {
        *sp = c;
        sp = &sp[1];
      }
      ct = ctab[c = read()];
    }
    *sp = 0;
    peekc = c;
    csym = lookup();
    if (csym[0]==1) {
      cval = csym[1];
      return(19); /* keyword */
    }
    return(20); /* name */
  }
  if (ct==127) { /* unknown */
    error('sy');
    c = read();
    goto loop;
  }
  return(ctab[c]);
}

subseq(c,a,b) {
  extrn peekc;

  if (!peekc)
    peekc = read();
  if (peekc != c)
    return(a);
  peekc = 0;
  return(b);
}

getcc() {
  extrn cval;
  auto c;

  cval = 0;
  if ((c = mapch('*'')) < 0)
    return;
  cval = c;
  if ((c = mapch('*'')) < 0)
    return;
  cval = cval * 256 + c;
  if (mapch('*'') >= 0)
    error('cc');
}

getstr() {
  auto i, c, d;

  i = 1;
loop:
  if ((c = mapch('""')) < 0) {
    number(2048);
    write('*n');
    return(i);
  }
  if ((d = mapch('""')) < 0) {
    number(c*512+4);
    write('*n');
    return(i);
  }
  number(c*512+d);
  write('*n');
  i = i+1;
  goto loop;
}

mapch(c) {
  extrn peekc;
  auto a;

  if ((a=read())==c)
    return(-1);

  if (a=='*n' | a==0 | a==4) {
    error('cc');
    peekc = a;
    return(-1);
  }

  if (a=='**') {
    a=read();

    if (a=='0')
      return(0);

    if (a=='e')
      return(4);

    if (a=='(')
      return('{');

    if (a==')')
      return('}');

    if (a=='t')
      return('*t');

    if (a=='r')
      return('*r');

    if (a=='n')
      return('*n');
  }
  return(a);
}

expr(lev) {
  extrn peeksym, csym, cval, isn;
  auto o;

  o = symbol();

  if (o==21) { /* number */
case21:
    if ((cval & 017777)==cval) {
      gen('c',cval); /* consop */
      goto loop;
    }
    gen('n',5); /* litrl */
    number(cval);
    write('*n');
    goto loop;
  }

  if (o==122) { /* string */
    write('x ');
    write('.+');
    write('2*n');
    write('t ');
    write('2f');
    write('*n');
    write('.+');
    write('1*n');
    getstr();
    write('2:');
    write('*n');
    goto loop;
  }

  if (o==20) { /* name */
    if (*csym==0) { /* not seen */
      if ((peeksym=symbol())==6) { /* ( */
        *csym = 6; /* extrn */
      } else {
        *csym = 2; /* internal */
        csym[1] = isn;
        isn = isn+1;
      }
    }
    if (*csym==5) /* auto */
      gen('a',csym[1]);
    else {
      write('x ');
      if (*csym==6) { /* extrn */
        write('.');
        name(&csym[2]);
      } else { /* internal */
        write('1f');
        write('+');
        number(csym[1]);
      }
      write('*n');
    }
    goto loop;
  }

  if (o==34) { /* ! */
    expr(1);
    gen('u',4); /* unot */
    goto loop;
  }

  if (o==41) { /* - */
    peeksym = symbol();
    if (peeksym==21) { /* number */
      peeksym = -1;
      cval = -cval;
      goto case21;
    }
    expr(1);
    gen('u',2); /* umin */
    goto loop;
  }

  if (o==47) { /* & */
    expr(1);
    gen('u',1); /* uadr */
    goto loop;
  }

  if (o==42) { /* * */
    expr(1);
    gen('u',3); /* uind */
    goto loop;
  }

  if (o==6) { /* ( */
    peeksym = o;
    pexpr();
    goto loop;
  }
  error('ex');

loop:
  o = symbol();

  if (lev>=14 & o==80) { /* = */
    expr(14);
    gen('b',1); /* asg */
    goto loop;
  }
  if (lev>=10 & o==48) { /* | ^ */
    expr(9);
    gen('b',2); /* bor */
    goto loop;
  }
  if (lev>=8 & o==47) { /* & */
    expr(7);
    gen('b',3); /* band */
    goto loop;
  }
  if (lev>=7 & o>=60 & o<=61) { /* == != */
    expr(6);
    gen('b',o-56); /* beq bne */
    goto loop;
  }
  if (lev>=6 & o>=62 & o<=65) { /* <= < >= > */
    expr(5);
    gen('b',o-56); /* ble blt bge bgt */
    goto loop;
  }
  if (lev>=4 & o>=40 & o<=41) { /* + - */
    expr(3);
    gen('b',o-28); /* badd bmin */
    goto loop;
  }
  if (lev>=3 & o>=42 & o<=43) { /* * / */
    expr(2);
    gen('b',o-27); /* bmul bdiv */
    goto loop;
  }
  if (lev>=3 & o==44) { /* % */
    expr(2);
    gen('b',14); /* bmod */
    goto loop;
  }
  if (o==4) { /* [ */
    expr(15);
    if (symbol() != 5)
      error('[]');
    gen('n',4); /* vector */
    goto loop;
  }
  if (o==6) { /* ( */
    o = symbol();
    if (o==7) /* ) */
      gen('n',1); /* mcall */
    else {
      gen('n',2); /* mark */
      peeksym = o;
      while (o!=7) {
        expr(15);
        o = symbol();
        if (o!=7 & o!=9) { /* ) , */
          error('ex');
          return;
        }
      }
      gen('n',3); /* call */
    }
    goto loop;
  }

  peeksym = o;
}

pexpr() {
  if (symbol()==6) { /* ( */
    expr(15);
    if (symbol()==7) /* ) */
      return;
  }
  error('()');
}

declare(kw) {
  extrn csym, cval, nauto;
  auto o;

  while((o=symbol())==20) { /* name */
    if (kw==6) { /* extrn */
      *csym = 6;
      o = symbol();
    } else { /* auto/param */
      *csym = 5; /* auto */
      csym[1] = nauto;
      o = symbol();
      if (kw==5 & o==21) { /* auto & number */
        gen('y',nauto); /* aryop */
        nauto = nauto + cval;
        o = symbol();
      }
      nauto = nauto+1;
    }
    if (o!=9) /* , */
      goto done;
  }
done:
  if (o==1 & kw!=8 | o==7 & kw==8) /* auto/extrn ;  param ')' */
    return;
syntax:
  error('[]'); /* declaration syntax */
}

extdef() {
  extrn peeksym, csym, cval, nauto;
  auto o, c;

  o = symbol();
  if (o==0 | o==1) /* eof ; */
    return;

  if (o!=20) /* name */
    goto syntax;

  csym[0] = 6; /* extrn */
  write('.');
  name(&csym[2]);
  write(':');
  o=symbol();

  if (o==2 | o==6) { /* $( ( */
    write('.+');
    write('1*n');
    nauto = 2;
    if (o==6) { /* ( */
      declare(8); /* param */
      if ((o=symbol())!=2) /* $( */
        goto syntax;
    }
    while((o=symbol())==19 & cval<10) /* auto extrn */
      declare(cval);
    peeksym = o;
    gen('s',nauto); /* setop */
    stmtlist();
    gen('n',7); /* retrn */
    return;
  }

  if (o==41) { /* - */
    if (symbol()!=21) /* number */
      goto syntax;
    number(-cval);
    write('*n');
    return;
  }

  if (o==21) { /* number */
    number(cval);
    write('*n');
    return;
  }

  if (o==1) { /* ; */
    write('0*n');
    return;
  }

  if (o==4) { /* [ */
    c = 0;
    if ((o=symbol())==21) { /* number */
      c = cval;
      o = symbol();
    }
    if (o!=5) /* ] */
      goto syntax;
    write('.+');
    write('1*n');
    if ((o=symbol())==1) /* ; */
      goto done;
    while (o==21 | o==41) { /* number - */
      if (o==41) { /* - */
        if (symbol()!=21)
          goto syntax;
        cval = -cval;
      }
      number(cval);
      write('*n');
      c = c-1;
      if ((o=symbol())==1) /* ; */
        goto done;
      if (o!=9) /* , */
        goto syntax;
      else
        o = symbol();
    }
    goto syntax;
done:
    if (c>0) {
      write('.=');
      write('.+');
      number(c);
      write('*n');
    }
    return;
  }

  if (o==0) /* eof */
    return;

syntax:
  error('xx');
  stmt();
}

stmtlist() {
  extrn peeksym, eof;
  auto o;

  while (!eof) {
    if ((o = symbol())==3) /* $) */
      return;
    peeksym = o;
    stmt();
  }
  error('$)'); /* missing $) */
}

stmt() {
  extrn peeksym, peekc, csym, cval, isn, nauto;
  auto o, o1, o2;

next:
  o = symbol();

  if (o==0) { /* eof */
    error('fe'); /* Unexpected eof */
    return;
  }

  if (o==1 | o==3) /* ; $) */
    return;

  if (o==2) { /* $( */
    stmtlist();
    return;
  }

  if (o==19) { /* keyword */

    if (cval==10) { /* goto */
      expr(15);
      gen('n',6); /* goto */
      goto semi;
    }

    if (cval==11) { /* return */
      if ((peeksym=symbol())==6) /* ( */
        pexpr();
      gen('n',7); /* retrn */
      goto semi;
    }

    if (cval==12) { /* if */
      pexpr();
      o1 = isn;
      isn = isn+1;
      jumpc(o1);
      stmt();
      o = symbol();
      if (o==19 & cval==14) { /* else */
        o2 = isn;
        isn = isn+1;
        jump(o2);
        label(o1);
        stmt();
        label(o2);
        return;
      }
      peeksym = o;
      label(o1);
      return;
    }

    if (cval==13) { /* while */
      o1 = isn;
      isn = isn+1;
      label(o1);
      pexpr();
      o2 = isn;
      isn = isn+1;
      jumpc(o2);
      stmt();
      jump(o1);
      label(o2);
      return;
    }

    error('sx');
    goto syntax;
  }

  if (o==20 & peekc==':') { /* name : */
    peekc = 0;
    if (!*csym) {
      *csym = 2; /* param */
      csym[1] = isn;
      isn = isn+1;
    } else if (*csym != 2) {
      error('rd');
      goto next;
    }
    label(csym[1]);
    goto next;
  }

  peeksym = o;
  expr(15);
  gen('s',nauto); /* setop */

semi:
  o = symbol();
  if (o==1) /* ; */
    return;

syntax:
  error('sz');
  goto next;
}

blkend() {
  extrn isn;
  auto i;

  if (!isn)
    return;
  write('1:');
  i = 0;
  while (i < isn) {
    write('l');
    number(i);
    write('*n');
    i = i+1;
  }
  isn = 0;
}

gen(o,n) {
  write(o);
  write(' ');
  number(n);
  write('*n');
}

jumpc(n) {
  write('f '); /* ifop */
  write('1f');
  write('+');
  number(n);
  write('*n');
}

jump(n) {
  write('x ');
  write('1f');
  write('+');
  number(n);
  gen('*nn',6); /* goto */
}

label(n) {
  write('l');
  number(n);
  write('=.');
  write('*n');
}

printn(n) {
  if (n > 9) {
    printn(n / 10);
    n = n % 10;
  }
  write(n + '0');
}

number(x) {
  if (x < 0) {
    write('-');
    x = -x;
  }
  printn(x);
}

name(s) {
  while (*s) {
    write(*s);
    s = &s[1];
  }
}

error(code) {
  extrn line, eof, csym, nerror, fout;
  auto f;

  if (eof | nerror==20) {
    eof = 1;
    return;
  }
  nerror = nerror+1;
  flush();
  f = fout;
  fout = 1;
  write(code);
  write(' ');
  if (code=='rd' | code=='un') {
    name(&csym[2]);
    write(' ');
  }
  printn(line);
  write('*n');
  flush();
  fout = f;
}

/* storage */

symtab[300] /* class value name */
  1, 5,'a','u','t','o', 0 ,
  1, 6,'e','x','t','r','n', 0 ,
  1,10,'g','o','t','o', 0 ,
  1,11,'r','e','t','u','r','n', 0 ,
  1,12,'i','f', 0 ,
  1,13,'w','h','i','l','e', 0 ,
  1,14,'e','l','s','e', 0 ;

ctab[]
    0,127,127,127,  0,127,127,127,  /* NUL SOH STX ETX EOT ENQ ACK BEL */
  127,126,126,127,127,127,127,127,  /* BS  TAB LF  VT  FF  CR  SO  SI  */
  127,127,127,127,127,127,127,127,  /* DLE DC1 DC2 DC3 DC4 NAK SYN ETB */
  127,127,127,127,127,127,127,127,  /* CAN EM  SUB ESC FS  GS  RS  US  */
  126, 34,122,127,127, 44, 47,121,  /* SPC  !   ""   #   $   %   &   '  */
    6,  7, 42, 40,  9, 41,127, 43,  /*  (   )   *   +   ,   -   .   /  */
  124,124,124,124,124,124,124,124,  /*  0   1   2   3   4   5   6   7  */
  124,124,  8,  1, 63, 80, 65, 90,  /*  8   9   :   ;   <   =   >   ?  */
  127,123,123,123,123,123,123,123,  /*  @   A   B   C   D   E   F   G  */
  123,123,123,123,123,123,123,123,  /*  H   I   J   K   L   M   N   O  */
  123,123,123,123,123,123,123,123,  /*  P   Q   R   S   T   U   V   W  */
  123,123,123,  4,127,  5, 48,127,  /*  X   Y   Z   [   \   ]   ^   _  */
  127,123,123,123,123,123,123,123,  /*  `   a   b   c   d   e   f   g  */
  123,123,123,123,123,123,123,123,  /*  h   i   j   k   l   m   n   o  */
  123,123,123,123,123,123,123,123,  /*  p   q   r   s   t   u   v   w  */
  123,123,123,  2, 48,  3,127,127;  /*  x   y   z   {   |   }   ~  DEL */

symbuf[10];
peeksym -1;
peekc;
eof;
line 1;
csym;
ns;
cval;
isn;
nerror;
nauto;
".
(** examples/b.pdp7 *)
Definition b_pdp7 : list ascii := list_ascii_of_string ".main:.+1
s 2
l0=.
x .eof
u 4
f 1f+1
x .ns
x .symtab
c 51
n 4
u 1
b 1
s 2
x .extdef
n 1
s 2
x .blkend
n 1
s 2
x 1f+0
n 6
l1=.
n 7
1:l0
l1
.lookup:.+1
s 5
a 4
x .symtab
b 1
s 5
l0=.
a 4
x .ns
b 7
f 1f+1
a 2
a 4
c 2
n 4
u 1
b 1
s 5
a 3
x .symbuf
b 1
s 5
l2=.
a 2
u 3
a 3
u 3
b 4
f 1f+3
a 2
u 3
u 4
f 1f+4
a 4
n 7
l4=.
a 2
a 2
c 1
n 4
u 1
b 1
s 5
a 3
a 3
c 1
n 4
u 1
b 1
s 5
x 1f+2
n 6
l3=.
l5=.
a 2
u 3
f 1f+6
a 2
a 2
c 1
n 4
u 1
b 1
s 5
x 1f+5
n 6
l6=.
a 4
a 2
c 1
n 4
u 1
b 1
s 5
x 1f+0
n 6
l1=.
a 3
x .symbuf
b 1
s 5
x .ns
x .symtab
c 290
n 4
u 1
b 8
f 1f+7
x .error
n 2
n 5
29542
n 3
s 5
x .eof
c 1
b 1
s 5
a 4
n 7
l7=.
x .ns
u 3
c 0
b 1
s 5
x .ns
c 1
n 4
c 0
b 1
s 5
x .ns
x .ns
c 2
n 4
u 1
b 1
s 5
l8=.
x .ns
u 3
a 3
u 3
b 1
f 1f+9
x .ns
x .ns
c 1
n 4
u 1
b 1
s 5
a 3
a 3
c 1
n 4
u 1
b 1
s 5
x 1f+8
n 6
l9=.
x .ns
x .ns
c 1
n 4
u 1
b 1
s 5
a 4
n 7
n 7
1:l0
l1
l2
l3
l4
l5
l6
l7
l8
l9
.symbol:.+1
s 6
x .peeksym
c 0
b 8
f 1f+0
a 3
x .peeksym
b 1
s 6
x .peeksym
n 5
-1
b 1
s 6
a 3
n 7
l0=.
x .peekc
f 1f+1
a 3
x .peekc
b 1
s 6
x .peekc
c 0
b 1
s 6
x 1f+2
n 6
l1=.
x .eof
f 1f+3
c 0
n 7
l3=.
a 3
x .read
n 1
b 1
s 6
l2=.
l4=.
a 4
x .ctab
a 3
n 4
b 1
s 6
a 4
c 0
b 4
f 1f+5
x .eof
c 1
b 1
s 6
c 0
n 7
l5=.
a 4
c 126
b 4
f 1f+6
a 3
c 10
b 4
f 1f+7
x .line
x .line
c 1
b 12
b 1
s 6
l7=.
a 3
x .read
n 1
b 1
s 6
x 1f+4
n 6
l6=.
a 3
c 61
b 4
f 1f+8
x .subseq
n 2
c 61
c 80
c 60
n 3
n 7
l8=.
a 3
c 60
b 4
f 1f+9
x .subseq
n 2
c 61
c 63
c 62
n 3
n 7
l9=.
a 3
c 62
b 4
f 1f+10
x .subseq
n 2
c 61
c 65
c 64
n 3
n 7
l10=.
a 3
c 33
b 4
f 1f+11
x .subseq
n 2
c 61
c 34
c 61
n 3
n 7
l11=.
a 3
c 36
b 4
f 1f+12
x .subseq
n 2
c 40
c 0
c 1
n 3
f 1f+13
c 2
n 7
l13=.
x .subseq
n 2
c 41
c 0
c 1
n 3
f 1f+14
c 3
n 7
l14=.
l12=.
a 3
c 47
b 4
f 1f+15
x .subseq
n 2
c 42
c 1
c 0
n 3
f 1f+16
c 43
n 7
l16=.
l17=.
a 3
x .read
n 1
b 1
s 6
l18=.
a 3
c 4
b 4
f 1f+19
x .eof
c 1
b 1
s 6
x .error
n 2
n 5
10799
n 3
s 6
c 0
n 7
l19=.
a 3
c 10
b 4
f 1f+20
x .line
x .line
c 1
b 12
b 1
s 6
l20=.
a 3
c 42
b 5
f 1f+21
x 1f+17
n 6
l21=.
a 3
x .read
n 1
b 1
s 6
a 3
c 47
b 5
f 1f+22
x 1f+18
n 6
l22=.
a 3
x .read
n 1
b 1
s 6
x 1f+4
n 6
l15=.
a 4
c 124
b 4
f 1f+23
x .cval
c 0
b 1
s 6
a 3
c 48
b 4
f 1f+24
a 2
c 8
b 1
s 6
x 1f+25
n 6
l24=.
a 2
c 10
b 1
s 6
l25=.
l26=.
a 3
c 48
b 8
a 3
c 57
b 6
b 3
f 1f+27
x .cval
x .cval
a 2
b 15
a 3
b 12
c 48
b 13
b 1
s 6
a 3
x .read
n 1
b 1
s 6
x 1f+26
n 6
l27=.
x .peekc
a 3
b 1
s 6
c 21
n 7
l23=.
a 3
c 39
b 4
f 1f+28
x .getcc
n 1
s 6
c 21
n 7
l28=.
a 4
c 123
b 4
f 1f+29
a 5
x .symbuf
b 1
s 6
l30=.
a 4
c 123
b 4
a 4
c 124
b 4
b 2
f 1f+31
a 5
x .symbuf
c 9
n 4
u 1
b 7
f 1f+32
a 5
u 3
a 3
b 1
s 6
a 5
a 5
c 1
n 4
u 1
b 1
s 6
l32=.
a 4
x .ctab
a 3
x .read
n 1
b 1
n 4
b 1
s 6
x 1f+30
n 6
l31=.
a 5
u 3
c 0
b 1
s 6
x .peekc
a 3
b 1
s 6
x .csym
x .lookup
n 1
b 1
s 6
x .csym
c 0
n 4
c 1
b 4
f 1f+33
x .cval
x .csym
c 1
n 4
b 1
s 6
c 19
n 7
l33=.
c 20
n 7
l29=.
a 4
c 127
b 4
f 1f+34
x .error
n 2
n 5
29561
n 3
s 6
a 3
x .read
n 1
b 1
s 6
x 1f+4
n 6
l34=.
x .ctab
a 3
n 4
n 7
n 7
1:l0
l1
l2
l3
l4
l5
l6
l7
l8
l9
l10
l11
l12
l13
l14
l15
l16
l17
l18
l19
l20
l21
l22
l23
l24
l25
l26
l27
l28
l29
l30
l31
l32
l33
l34
.subseq:.+1
s 5
x .peekc
u 4
f 1f+0
x .peekc
x .read
n 1
b 1
s 5
l0=.
x .peekc
a 2
b 5
f 1f+1
a 3
n 7
l1=.
x .peekc
c 0
b 1
s 5
a 4
n 7
n 7
1:l0
l1
.getcc:.+1
s 3
x .cval
c 0
b 1
s 3
a 2
x .mapch
n 2
c 39
n 3
b 1
c 0
b 7
f 1f+0
n 7
l0=.
x .cval
a 2
b 1
s 3
a 2
x .mapch
n 2
c 39
n 3
b 1
c 0
b 7
f 1f+1
n 7
l1=.
x .cval
x .cval
c 256
b 15
a 2
b 12
b 1
s 3
x .mapch
n 2
c 39
n 3
c 0
b 8
f 1f+2
x .error
n 2
n 5
25443
n 3
s 3
l2=.
n 7
1:l0
l1
l2
.getstr:.+1
s 5
a 2
c 1
b 1
s 5
l0=.
a 3
x .mapch
n 2
c 34
n 3
b 1
c 0
b 7
f 1f+1
x .number
n 2
c 2048
n 3
s 5
x .write
n 2
c 10
n 3
s 5
a 2
n 7
l1=.
a 4
x .mapch
n 2
c 34
n 3
b 1
c 0
b 7
f 1f+2
x .number
n 2
a 3
c 512
b 15
c 4
b 12
n 3
s 5
x .write
n 2
c 10
n 3
s 5
a 2
n 7
l2=.
x .number
n 2
a 3
c 512
b 15
a 4
b 12
n 3
s 5
x .write
n 2
c 10
n 3
s 5
a 2
a 2
c 1
b 12
b 1
s 5
x 1f+0
n 6
n 7
1:l0
l1
l2
.mapch:.+1
s 4
a 3
x .read
n 1
b 1
a 2
b 4
f 1f+0
n 5
-1
n 7
l0=.
a 3
c 10
b 4
a 3
c 0
b 4
b 2
a 3
c 4
b 4
b 2
f 1f+1
x .error
n 2
n 5
25443
n 3
s 4
x .peekc
a 3
b 1
s 4
n 5
-1
n 7
l1=.
a 3
c 42
b 4
f 1f+2
a 3
x .read
n 1
b 1
s 4
a 3
c 48
b 4
f 1f+3
c 0
n 7
l3=.
a 3
c 101
b 4
f 1f+4
c 4
n 7
l4=.
a 3
c 40
b 4
f 1f+5
c 123
n 7
l5=.
a 3
c 41
b 4
f 1f+6
c 125
n 7
l6=.
a 3
c 116
b 4
f 1f+7
c 9
n 7
l7=.
a 3
c 114
b 4
f 1f+8
c 13
n 7
l8=.
a 3
c 110
b 4
f 1f+9
c 10
n 7
l9=.
l2=.
a 3
n 7
n 7
1:l0
l1
l2
l3
l4
l5
l6
l7
l8
l9
.expr:.+1
s 4
a 3
x .symbol
n 1
b 1
s 4
a 3
c 21
b 4
f 1f+0
l1=.
x .cval
c 8191
b 3
x .cval
b 4
f 1f+2
x .gen
n 2
c 99
x .cval
n 3
s 4
x 1f+3
n 6
l2=.
x .gen
n 2
c 110
c 5
n 3
s 4
x .number
n 2
x .cval
n 3
s 4
x .write
n 2
c 10
n 3
s 4
x 1f+3
n 6
l0=.
a 3
c 122
b 4
f 1f+4
x .write
n 2
n 5
30752
n 3
s 4
x .write
n 2
n 5
11819
n 3
s 4
x .write
n 2
n 5
12810
n 3
s 4
x .write
n 2
n 5
29728
n 3
s 4
x .write
n 2
n 5
12902
n 3
s 4
x .write
n 2
c 10
n 3
s 4
x .write
n 2
n 5
11819
n 3
s 4
x .write
n 2
n 5
12554
n 3
s 4
x .getstr
n 1
s 4
x .write
n 2
n 5
12858
n 3
s 4
x .write
n 2
c 10
n 3
s 4
x 1f+3
n 6
l4=.
a 3
c 20
b 4
f 1f+5
x .csym
u 3
c 0
b 4
f 1f+6
x .peeksym
x .symbol
n 1
b 1
c 6
b 4
f 1f+7
x .csym
u 3
c 6
b 1
s 4
x 1f+8
n 6
l7=.
x .csym
u 3
c 2
b 1
s 4
x .csym
c 1
n 4
x .isn
b 1
s 4
x .isn
x .isn
c 1
b 12
b 1
s 4
l8=.
l6=.
x .csym
u 3
c 5
b 4
f 1f+9
x .gen
n 2
c 97
x .csym
c 1
n 4
n 3
s 4
x 1f+10
n 6
l9=.
x .write
n 2
n 5
30752
n 3
s 4
x .csym
u 3
c 6
b 4
f 1f+11
x .write
n 2
c 46
n 3
s 4
x .name
n 2
x .csym
c 2
n 4
u 1
n 3
s 4
x 1f+12
n 6
l11=.
x .write
n 2
n 5
12646
n 3
s 4
x .write
n 2
c 43
n 3
s 4
x .number
n 2
x .csym
c 1
n 4
n 3
s 4
l12=.
x .write
n 2
c 10
n 3
s 4
l10=.
x 1f+3
n 6
l5=.
a 3
c 34
b 4
f 1f+13
x .expr
n 2
c 1
n 3
s 4
x .gen
n 2
c 117
c 4
n 3
s 4
x 1f+3
n 6
l13=.
a 3
c 41
b 4
f 1f+14
x .peeksym
x .symbol
n 1
b 1
s 4
x .peeksym
c 21
b 4
f 1f+15
x .peeksym
n 5
-1
b 1
s 4
x .cval
x .cval
u 2
b 1
s 4
x 1f+1
n 6
l15=.
x .expr
n 2
c 1
n 3
s 4
x .gen
n 2
c 117
c 2
n 3
s 4
x 1f+3
n 6
l14=.
a 3
c 47
b 4
f 1f+16
x .expr
n 2
c 1
n 3
s 4
x .gen
n 2
c 117
c 1
n 3
s 4
x 1f+3
n 6
l16=.
a 3
c 42
b 4
f 1f+17
x .expr
n 2
c 1
n 3
s 4
x .gen
n 2
c 117
c 3
n 3
s 4
x 1f+3
n 6
l17=.
a 3
c 6
b 4
f 1f+18
x .peeksym
a 3
b 1
s 4
x .pexpr
n 1
s 4
x 1f+3
n 6
l18=.
x .error
n 2
n 5
25976
n 3
s 4
l3=.
a 3
x .symbol
n 1
b 1
s 4
a 2
c 14
b 8
a 3
c 80
b 4
b 3
f 1f+19
x .expr
n 2
c 14
n 3
s 4
x .gen
n 2
c 98
c 1
n 3
s 4
x 1f+3
n 6
l19=.
a 2
c 10
b 8
a 3
c 48
b 4
b 3
f 1f+20
x .expr
n 2
c 9
n 3
s 4
x .gen
n 2
c 98
c 2
n 3
s 4
x 1f+3
n 6
l20=.
a 2
c 8
b 8
a 3
c 47
b 4
b 3
f 1f+21
x .expr
n 2
c 7
n 3
s 4
x .gen
n 2
c 98
c 3
n 3
s 4
x 1f+3
n 6
l21=.
a 2
c 7
b 8
a 3
c 60
b 8
b 3
a 3
c 61
b 6
b 3
f 1f+22
x .expr
n 2
c 6
n 3
s 4
x .gen
n 2
c 98
a 3
c 56
b 13
n 3
s 4
x 1f+3
n 6
l22=.
a 2
c 6
b 8
a 3
c 62
b 8
b 3
a 3
c 65
b 6
b 3
f 1f+23
x .expr
n 2
c 5
n 3
s 4
x .gen
n 2
c 98
a 3
c 56
b 13
n 3
s 4
x 1f+3
n 6
l23=.
a 2
c 4
b 8
a 3
c 40
b 8
b 3
a 3
c 41
b 6
b 3
f 1f+24
x .expr
n 2
c 3
n 3
s 4
x .gen
n 2
c 98
a 3
c 28
b 13
n 3
s 4
x 1f+3
n 6
l24=.
a 2
c 3
b 8
a 3
c 42
b 8
b 3
a 3
c 43
b 6
b 3
f 1f+25
x .expr
n 2
c 2
n 3
s 4
x .gen
n 2
c 98
a 3
c 27
b 13
n 3
s 4
x 1f+3
n 6
l25=.
a 2
c 3
b 8
a 3
c 44
b 4
b 3
f 1f+26
x .expr
n 2
c 2
n 3
s 4
x .gen
n 2
c 98
c 14
n 3
s 4
x 1f+3
n 6
l26=.
a 3
c 4
b 4
f 1f+27
x .expr
n 2
c 15
n 3
s 4
x .symbol
n 1
c 5
b 5
f 1f+28
x .error
n 2
n 5
23389
n 3
s 4
l28=.
x .gen
n 2
c 110
c 4
n 3
s 4
x 1f+3
n 6
l27=.
a 3
c 6
b 4
f 1f+29
a 3
x .symbol
n 1
b 1
s 4
a 3
c 7
b 4
f 1f+30
x .gen
n 2
c 110
c 1
n 3
s 4
x 1f+31
n 6
l30=.
x .gen
n 2
c 110
c 2
n 3
s 4
x .peeksym
a 3
b 1
s 4
l32=.
a 3
c 7
b 5
f 1f+33
x .expr
n 2
c 15
n 3
s 4
a 3
x .symbol
n 1
b 1
s 4
a 3
c 7
b 5
a 3
c 9
b 5
b 3
f 1f+34
x .error
n 2
n 5
25976
n 3
s 4
n 7
l34=.
x 1f+32
n 6
l33=.
x .gen
n 2
c 110
c 3
n 3
s 4
l31=.
x 1f+3
n 6
l29=.
x .peeksym
a 3
b 1
s 4
n 7
1:l0
l1
l2
l3
l4
l5
l6
l7
l8
l9
l10
l11
l12
l13
l14
l15
l16
l17
l18
l19
l20
l21
l22
l23
l24
l25
l26
l27
l28
l29
l30
l31
l32
l33
l34
.pexpr:.+1
s 2
x .symbol
n 1
c 6
b 4
f 1f+0
x .expr
n 2
c 15
n 3
s 2
x .symbol
n 1
c 7
b 4
f 1f+1
n 7
l1=.
l0=.
x .error
n 2
n 5
10281
n 3
s 2
n 7
1:l0
l1
.declare:.+1
s 4
l0=.
a 3
x .symbol
n 1
b 1
c 20
b 4
f 1f+1
a 2
c 6
b 4
f 1f+2
x .csym
u 3
c 6
b 1
s 4
a 3
x .symbol
n 1
b 1
s 4
x 1f+3
n 6
l2=.
x .csym
u 3
c 5
b 1
s 4
x .csym
c 1
n 4
x .nauto
b 1
s 4
a 3
x .symbol
n 1
b 1
s 4
a 2
c 5
b 4
a 3
c 21
b 4
b 3
f 1f+4
x .gen
n 2
c 121
x .nauto
n 3
s 4
x .nauto
x .nauto
x .cval
b 12
b 1
s 4
a 3
x .symbol
n 1
b 1
s 4
l4=.
x .nauto
x .nauto
c 1
b 12
b 1
s 4
l3=.
a 3
c 9
b 5
f 1f+5
x 1f+6
n 6
l5=.
x 1f+0
n 6
l1=.
l6=.
a 3
c 1
b 4
a 2
c 8
b 5
b 3
a 3
c 7
b 4
a 2
c 8
b 4
b 3
b 2
f 1f+7
n 7
l7=.
l8=.
x .error
n 2
n 5
23389
n 3
s 4
n 7
1:l0
l1
l2
l3
l4
l5
l6
l7
l8
.extdef:.+1
s 4
a 2
x .symbol
n 1
b 1
s 4
a 2
c 0
b 4
a 2
c 1
b 4
b 2
f 1f+0
n 7
l0=.
a 2
c 20
b 5
f 1f+1
x 1f+2
n 6
l1=.
x .csym
c 0
n 4
c 6
b 1
s 4
x .write
n 2
c 46
n 3
s 4
x .name
n 2
x .csym
c 2
n 4
u 1
n 3
s 4
x .write
n 2
c 58
n 3
s 4
a 2
x .symbol
n 1
b 1
s 4
a 2
c 2
b 4
a 2
c 6
b 4
b 2
f 1f+3
x .write
n 2
n 5
11819
n 3
s 4
x .write
n 2
n 5
12554
n 3
s 4
x .nauto
c 2
b 1
s 4
a 2
c 6
b 4
f 1f+4
x .declare
n 2
c 8
n 3
s 4
a 2
x .symbol
n 1
b 1
c 2
b 5
f 1f+5
x 1f+2
n 6
l5=.
l4=.
l6=.
a 2
x .symbol
n 1
b 1
c 19
b 4
x .cval
c 10
b 7
b 3
f 1f+7
x .declare
n 2
x .cval
n 3
s 4
x 1f+6
n 6
l7=.
x .peeksym
a 2
b 1
s 4
x .gen
n 2
c 115
x .nauto
n 3
s 4
x .stmtlist
n 1
s 4
x .gen
n 2
c 110
c 7
n 3
s 4
n 7
l3=.
a 2
c 41
b 4
f 1f+8
x .symbol
n 1
c 21
b 5
f 1f+9
x 1f+2
n 6
l9=.
x .number
n 2
x .cval
u 2
n 3
s 4
x .write
n 2
c 10
n 3
s 4
n 7
l8=.
a 2
c 21
b 4
f 1f+10
x .number
n 2
x .cval
n 3
s 4
x .write
n 2
c 10
n 3
s 4
n 7
l10=.
a 2
c 1
b 4
f 1f+11
x .write
n 2
n 5
12298
n 3
s 4
n 7
l11=.
a 2
c 4
b 4
f 1f+12
a 3
c 0
b 1
s 4
a 2
x .symbol
n 1
b 1
c 21
b 4
f 1f+13
a 3
x .cval
b 1
s 4
a 2
x .symbol
n 1
b 1
s 4
l13=.
a 2
c 5
b 5
f 1f+14
x 1f+2
n 6
l14=.
x .write
n 2
n 5
11819
n 3
s 4
x .write
n 2
n 5
12554
n 3
s 4
a 2
x .symbol
n 1
b 1
c 1
b 4
f 1f+15
x 1f+16
n 6
l15=.
l17=.
a 2
c 21
b 4
a 2
c 41
b 4
b 2
f 1f+18
a 2
c 41
b 4
f 1f+19
x .symbol
n 1
c 21
b 5
f 1f+20
x 1f+2
n 6
l20=.
x .cval
x .cval
u 2
b 1
s 4
l19=.
x .number
n 2
x .cval
n 3
s 4
x .write
n 2
c 10
n 3
s 4
a 3
a 3
c 1
b 13
b 1
s 4
a 2
x .symbol
n 1
b 1
c 1
b 4
f 1f+21
x 1f+16
n 6
l21=.
a 2
c 9
b 5
f 1f+22
x 1f+2
n 6
x 1f+23
n 6
l22=.
a 2
x .symbol
n 1
b 1
s 4
l23=.
x 1f+17
n 6
l18=.
x 1f+2
n 6
l16=.
a 3
c 0
b 9
f 1f+24
x .write
n 2
n 5
11837
n 3
s 4
x .write
n 2
n 5
11819
n 3
s 4
x .number
n 2
a 3
n 3
s 4
x .write
n 2
c 10
n 3
s 4
l24=.
n 7
l12=.
a 2
c 0
b 4
f 1f+25
n 7
l25=.
l2=.
x .error
n 2
n 5
30840
n 3
s 4
x .stmt
n 1
s 4
n 7
1:l0
l1
l2
l3
l4
l5
l6
l7
l8
l9
l10
l11
l12
l13
l14
l15
l16
l17
l18
l19
l20
l21
l22
l23
l24
l25
.stmtlist:.+1
s 3
l0=.
x .eof
u 4
f 1f+1
a 2
x .symbol
n 1
b 1
c 3
b 4
f 1f+2
n 7
l2=.
x .peeksym
a 2
b 1
s 3
x .stmt
n 1
s 3
x 1f+0
n 6
l1=.
x .error
n 2
n 5
9257
n 3
s 3
n 7
1:l0
l1
l2
.stmt:.+1
s 5
l0=.
a 2
x .symbol
n 1
b 1
s 5
a 2
c 0
b 4
f 1f+1
x .error
n 2
n 5
26213
n 3
s 5
n 7
l1=.
a 2
c 1
b 4
a 2
c 3
b 4
b 2
f 1f+2
n 7
l2=.
a 2
c 2
b 4
f 1f+3
x .stmtlist
n 1
s 5
n 7
l3=.
a 2
c 19
b 4
f 1f+4
x .cval
c 10
b 4
f 1f+5
x .expr
n 2
c 15
n 3
s 5
x .gen
n 2
c 110
c 6
n 3
s 5
x 1f+6
n 6
l5=.
x .cval
c 11
b 4
f 1f+7
x .peeksym
x .symbol
n 1
b 1
c 6
b 4
f 1f+8
x .pexpr
n 1
s 5
l8=.
x .gen
n 2
c 110
c 7
n 3
s 5
x 1f+6
n 6
l7=.
x .cval
c 12
b 4
f 1f+9
x .pexpr
n 1
s 5
a 3
x .isn
b 1
s 5
x .isn
x .isn
c 1
b 12
b 1
s 5
x .jumpc
n 2
a 3
n 3
s 5
x .stmt
n 1
s 5
a 2
x .symbol
n 1
b 1
s 5
a 2
c 19
b 4
x .cval
c 14
b 4
b 3
f 1f+10
a 4
x .isn
b 1
s 5
x .isn
x .isn
c 1
b 12
b 1
s 5
x .jump
n 2
a 4
n 3
s 5
x .label
n 2
a 3
n 3
s 5
x .stmt
n 1
s 5
x .label
n 2
a 4
n 3
s 5
n 7
l10=.
x .peeksym
a 2
b 1
s 5
x .label
n 2
a 3
n 3
s 5
n 7
l9=.
x .cval
c 13
b 4
f 1f+11
a 3
x .isn
b 1
s 5
x .isn
x .isn
c 1
b 12
b 1
s 5
x .label
n 2
a 3
n 3
s 5
x .pexpr
n 1
s 5
a 4
x .isn
b 1
s 5
x .isn
x .isn
c 1
b 12
b 1
s 5
x .jumpc
n 2
a 4
n 3
s 5
x .stmt
n 1
s 5
x .jump
n 2
a 3
n 3
s 5
x .label
n 2
a 4
n 3
s 5
n 7
l11=.
x .error
n 2
n 5
29560
n 3
s 5
x 1f+12
n 6
l4=.
a 2
c 20
b 4
x .peekc
c 58
b 4
b 3
f 1f+13
x .peekc
c 0
b 1
s 5
x .csym
u 3
u 4
f 1f+14
x .csym
u 3
c 2
b 1
s 5
x .csym
c 1
n 4
x .isn
b 1
s 5
x .isn
x .isn
c 1
b 12
b 1
s 5
x 1f+15
n 6
l14=.
x .csym
u 3
c 2
b 5
f 1f+16
x .error
n 2
n 5
29284
n 3
s 5
x 1f+0
n 6
l16=.
l15=.
x .label
n 2
x .csym
c 1
n 4
n 3
s 5
x 1f+0
n 6
l13=.
x .peeksym
a 2
b 1
s 5
x .expr
n 2
c 15
n 3
s 5
x .gen
n 2
c 115
x .nauto
n 3
s 5
l6=.
a 2
x .symbol
n 1
b 1
s 5
a 2
c 1
b 4
f 1f+17
n 7
l17=.
l12=.
x .error
n 2
n 5
29562
n 3
s 5
x 1f+0
n 6
n 7
1:l0
l1
l2
l3
l4
l5
l6
l7
l8
l9
l10
l11
l12
l13
l14
l15
l16
l17
.blkend:.+1
s 3
x .isn
u 4
f 1f+0
n 7
l0=.
x .write
n 2
n 5
12602
n 3
s 3
a 2
c 0
b 1
s 3
l1=.
a 2
x .isn
b 7
f 1f+2
x .write
n 2
c 108
n 3
s 3
x .number
n 2
a 2
n 3
s 3
x .write
n 2
c 10
n 3
s 3
a 2
a 2
c 1
b 12
b 1
s 3
x 1f+1
n 6
l2=.
x .isn
c 0
b 1
s 3
n 7
1:l0
l1
l2
.gen:.+1
s 4
x .write
n 2
a 2
n 3
s 4
x .write
n 2
c 32
n 3
s 4
x .number
n 2
a 3
n 3
s 4
x .write
n 2
c 10
n 3
s 4
n 7
.jumpc:.+1
s 3
x .write
n 2
n 5
26144
n 3
s 3
x .write
n 2
n 5
12646
n 3
s 3
x .write
n 2
c 43
n 3
s 3
x .number
n 2
a 2
n 3
s 3
x .write
n 2
c 10
n 3
s 3
n 7
.jump:.+1
s 3
x .write
n 2
n 5
30752
n 3
s 3
x .write
n 2
n 5
12646
n 3
s 3
x .write
n 2
c 43
n 3
s 3
x .number
n 2
a 2
n 3
s 3
x .gen
n 2
c 2670
c 6
n 3
s 3
n 7
.label:.+1
s 3
x .write
n 2
c 108
n 3
s 3
x .number
n 2
a 2
n 3
s 3
x .write
n 2
n 5
15662
n 3
s 3
x .write
n 2
c 10
n 3
s 3
n 7
.printn:.+1
s 3
a 2
c 9
b 9
f 1f+0
x .printn
n 2
a 2
c 10
b 16
n 3
s 3
a 2
a 2
c 10
b 14
b 1
s 3
l0=.
x .write
n 2
a 2
c 48
b 12
n 3
s 3
n 7
1:l0
.number:.+1
s 3
a 2
c 0
b 7
f 1f+0
x .write
n 2
c 45
n 3
s 3
a 2
a 2
u 2
b 1
s 3
l0=.
x .printn
n 2
a 2
n 3
s 3
n 7
1:l0
.name:.+1
s 3
l0=.
a 2
u 3
f 1f+1
x .write
n 2
a 2
u 3
n 3
s 3
a 2
a 2
c 1
n 4
u 1
b 1
s 3
x 1f+0
n 6
l1=.
n 7
1:l0
l1
.error:.+1
s 4
x .eof
x .nerror
c 20
b 4
b 2
f 1f+0
x .eof
c 1
b 1
s 4
n 7
l0=.
x .nerror
x .nerror
c 1
b 12
b 1
s 4
x .flush
n 1
s 4
a 3
x .fout
b 1
s 4
x .fout
c 1
b 1
s 4
x .write
n 2
a 2
n 3
s 4
x .write
n 2
c 32
n 3
s 4
a 2
n 5
29284
b 4
a 2
n 5
30062
b 4
b 2
f 1f+1
x .name
n 2
x .csym
c 2
n 4
u 1
n 3
s 4
x .write
n 2
c 32
n 3
s 4
l1=.
x .printn
n 2
x .line
n 3
s 4
x .write
n 2
c 10
n 3
s 4
x .flush
n 1
s 4
x .fout
a 3
b 1
s 4
n 7
1:l0
l1
.symtab:.+1
1
5
97
117
116
111
0
1
6
101
120
116
114
110
0
1
10
103
111
116
111
0
1
11
114
101
116
117
114
110
0
1
12
105
102
0
1
13
119
104
105
108
101
0
1
14
101
108
115
101
0
.=.+249
.ctab:.+1
0
127
127
127
0
127
127
127
127
126
126
127
127
127
127
127
127
127
127
127
127
127
127
127
127
127
127
127
127
127
127
127
126
34
122
127
127
44
47
121
6
7
42
40
9
41
127
43
124
124
124
124
124
124
124
124
124
124
8
1
63
80
65
90
127
123
123
123
123
123
123
123
123
123
123
123
123
123
123
123
123
123
123
123
123
123
123
123
123
123
123
4
127
5
48
127
127
123
123
123
123
123
123
123
123
123
123
123
123
123
123
123
123
123
123
123
123
123
123
123
123
123
123
2
48
3
127
127
.symbuf:.+1
.=.+10
.peeksym:-1
.peekc:0
.eof:0
.line:1
.csym:0
.ns:0
.cval:0
.isn:0
.nerror:0
.nauto:0
".
(** The program [src] with the given input writes [want] and ends with code 0. *)
Definition writes (src input want : list ascii) : bool :=
  match result src input with Some (z, o) => (z =? 0) && same_text o want | None => false end.
Lemma same_text_eq a : forall b, same_text a b = true -> a = b.
Proof.
  induction a as [|x a IH]; intros [|y b] E; try discriminate; auto. cbn [same_text] in E. apply andb_true_iff in E. destruct E as [E1 E2].
  apply Ascii.eqb_eq in E1. rewrite E1, (IH b E2). reflexivity.
Qed.
(** What that says about the model. *)
Theorem writes_means src input want : writes src input want = true -> exists M m o', Decl.compile src false = Ok M tt /\
  PropsGlobal.loaded (box M) M m /\ process_ends (box M) M m (mkOs (map Runtime.RdByte input) []) 0 o' /\ stdout o' = want.
Proof.
  unfold writes. destruct (result src input) as [[z o]|] eqn:R; [|discriminate]. intros E. apply andb_true_iff in E. destruct E as [E1 E2].
  apply Z.eqb_eq in E1. subst z. apply same_text_eq in E2. subst o. apply result_sound in R.
  destruct R as (M & m & o' & R1 & R2 & R3 & R4 & R5 & R6). exists M, m, o'. auto.
Qed.
Print Assumptions writes_means.
(** The check: compilation of this file fails here if it is not true. *)
Ltac must_hold t := let v := eval vm_compute in t in lazymatch v with true => idtac "the self test passes" | _ => fail 1 "the self test fails" end.
Goal True.
Proof. must_hold (writes b_b b_b b_pdp7). exact Logic.I. Qed.
