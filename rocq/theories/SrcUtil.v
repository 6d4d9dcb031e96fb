(** Source text, copied byte for byte: src/hblas/fortran/util/*.f (a double quote would be doubled; there is none). *)
From Coq Require Import String.
Local Open Scope string_scope.
(** src/hblas/fortran/util/hdexp.f, all 43 lines *)
Definition src_hdexp : string := "C 
C     This file is a part of HAXX
C     
C     Copyright (c) 2017 David Williams-Young
C     All rights reserved.
C     
C     See LICENSE.txt 
C
      Subroutine HDEXP(M, N, A, LDA, B, LDB)
C
      IMPLICIT REAL*8(A-H,O,Z)
      DIMENSION A(4,LDA,*), B(LDB,*)
C
      JB = 1
      Do 20 J = 1,N
        IB = 1
        Do 10 I = 1,M
          B(IB,JB)     =  A(1,I,J)
          B(IB,JB+1)   =  A(2,I,J)
          B(IB,JB+2)   =  A(3,I,J)
          B(IB,JB+3)   =  A(4,I,J)

          B(IB+1,JB)   =  -A(2,I,J)
          B(IB+1,JB+1) =   A(1,I,J)
          B(IB+1,JB+2) =  -A(4,I,J)
          B(IB+1,JB+3) =   A(3,I,J)

          B(IB+2,JB)   =  -A(3,I,J)
          B(IB+2,JB+1) =   A(4,I,J)
          B(IB+2,JB+2) =   A(1,I,J)
          B(IB+2,JB+3) =  -A(2,I,J)

          B(IB+3,JB)   =  -A(4,I,J)
          B(IB+3,JB+1) =  -A(3,I,J)
          B(IB+3,JB+2) =   A(2,I,J)
          B(IB+3,JB+3) =   A(1,I,J)

          IB = IB + 4
  10    CONTINUE
        JB = JB + 4
  20  CONTINUE
C
      END
".
(** src/hblas/fortran/util/hzcon.f, all 71 lines *)
Definition src_hzcon : string := "C 
C     This file is a part of HAXX
C     
C     Copyright (c) 2017 David Williams-Young
C     All rights reserved.
C     
C     See LICENSE.txt 
C
      Subroutine HZCON1(UPLO, M, N, A, LDA, B, LDB)
C
      CHARACTER UPLO
      LOGICAL NOTL
      INTEGER*4 M,N,LDA,LDB
      COMPLEX*16 A(2,LDA,*), B(LDB,*)
C
      LOGICAL LSAME
      EXTERNAL LSAME
C
C
      NOTL = LSAME(UPLO,'U')
C
      JB = 1
      Do 20 J = 1,N
        IB = 1
        Do 10 I = 1,M
          A(1,I,J) = B(IB,JB)     

          IF( NOTL ) THEN
            A(2,I,J) = B(IB,JB+1)     
          ELSE
            A(2,I,J) = -CONJG(B(IB+1,JB))     
          ENDIF

          IB = IB + 2
  10    CONTINUE
        JB = JB + 2
  20  CONTINUE
C
      END
C
C
C
      Subroutine HZCON2(UPLO, M, N, A, LDA, B, LDB)
C
      CHARACTER UPLO
      LOGICAL NOTL
      INTEGER*4 M,N,LDA,LDB
C
      Complex*16 A(2,LDA,*), B(LDB,*)
C
C
      LOGICAL LSAME
      EXTERNAL LSAME
C

      NOTL = LSAME(UPLO,'U')

      Do 10 J = 1,N
      Do 10 I = 1,M

        A(1,I,J) = B(I,J)     
        IF( NOTL ) THEN
          A(2,I,J) = B(I,J+N)     
        ELSE
          A(2,I,J) = -CONJG(B(I+M,J))     
        ENDIF


  10  CONTINUE
C
      END
".
(** src/hblas/fortran/util/hzexp.f, all 45 lines *)
Definition src_hzexp : string := "C 
C     This file is a part of HAXX
C     
C     Copyright (c) 2017 David Williams-Young
C     All rights reserved.
C     
C     See LICENSE.txt 
C
      Subroutine HZEXP1(M, N, A, LDA, B, LDB)
C
      IMPLICIT COMPLEX*16(A-H,O,Z)
      DIMENSION A(2,LDA,*), B(LDB,*)
C
      JB = 1
      Do 20 J = 1,N
        IB = 1
        Do 10 I = 1,M
          B(IB,JB)     =  A(1,I,J)
          B(IB+1,JB+1) =  CONJG(A(1,I,J))
          B(IB,JB+1)   =  A(2,I,J)
          B(IB+1,JB)   = -CONJG(A(2,I,J))

          IB = IB + 2
  10    CONTINUE
        JB = JB + 2
  20  CONTINUE
C
      END
C
C
C
      Subroutine HZEXP2(M, N, A, LDA, B, LDB)
C
      IMPLICIT COMPLEX*16(A-H,O,Z)
      DIMENSION A(2,LDA,*), B(LDB,*)
C
      Do 10 J = 1,N
      Do 10 I = 1,M
        B(I,J)     =  A(1,I,J)
        B(I+M,J+N) =  CONJG(A(1,I,J))
        B(I,J+N)   =  A(2,I,J)
        B(I+M,J)   = -CONJG(A(2,I,J))
  10  CONTINUE
C
      END
".
(** src/hblas/fortran/util/lsame.f, all 87 lines *)
Definition src_lsame : string := "      LOGICAL          FUNCTION LSAME( CA, CB )
*
*  -- LAPACK auxiliary routine (version 3.1) --
*     Univ. of Tennessee, Univ. of California Berkeley and NAG Ltd..
*     November 2006
*
*     .. Scalar Arguments ..
      CHARACTER          CA, CB
*     ..
*
*  Purpose
*  =======
*
*  LSAME returns .TRUE. if CA is the same letter as CB regardless of
*  case.
*
*  Arguments
*  =========
*
*  CA      (input) CHARACTER*1
*  CB      (input) CHARACTER*1
*          CA and CB specify the single characters to be compared.
*
* =====================================================================
*
*     .. Intrinsic Functions ..
      INTRINSIC          ICHAR
*     ..
*     .. Local Scalars ..
      INTEGER            INTA, INTB, ZCODE
*     ..
*     .. Executable Statements ..
*
*     Test if the characters are equal
*
      LSAME = CA.EQ.CB
      IF( LSAME )
     $   RETURN
*
*     Now test for equivalence if both characters are alphabetic.
*
      ZCODE = ICHAR( 'Z' )
*
*     Use 'Z' rather than 'A' so that ASCII can be detected on Prime
*     machines, on which ICHAR returns a value with bit 8 set.
*     ICHAR('A') on Prime machines returns 193 which is the same as
*     ICHAR('A') on an EBCDIC machine.
*
      INTA = ICHAR( CA )
      INTB = ICHAR( CB )
*
      IF( ZCODE.EQ.90 .OR. ZCODE.EQ.122 ) THEN
*
*        ASCII is assumed - ZCODE is the ASCII code of either lower or
*        upper case 'Z'.
*
         IF( INTA.GE.97 .AND. INTA.LE.122 ) INTA = INTA - 32
         IF( INTB.GE.97 .AND. INTB.LE.122 ) INTB = INTB - 32
*
      ELSE IF( ZCODE.EQ.233 .OR. ZCODE.EQ.169 ) THEN
*
*        EBCDIC is assumed - ZCODE is the EBCDIC code of either lower or
*        upper case 'Z'.
*
         IF( INTA.GE.129 .AND. INTA.LE.137 .OR.
     $       INTA.GE.145 .AND. INTA.LE.153 .OR.
     $       INTA.GE.162 .AND. INTA.LE.169 ) INTA = INTA + 64
         IF( INTB.GE.129 .AND. INTB.LE.137 .OR.
     $       INTB.GE.145 .AND. INTB.LE.153 .OR.
     $       INTB.GE.162 .AND. INTB.LE.169 ) INTB = INTB + 64
*
      ELSE IF( ZCODE.EQ.218 .OR. ZCODE.EQ.250 ) THEN
*
*        ASCII is assumed, on Prime machines - ZCODE is the ASCII code
*        plus 128 of either lower or upper case 'Z'.
*
         IF( INTA.GE.225 .AND. INTA.LE.250 ) INTA = INTA - 32
         IF( INTB.GE.225 .AND. INTB.LE.250 ) INTB = INTB - 32
      END IF
      LSAME = INTA.EQ.INTB
*
*     RETURN
*
*     End of LSAME
*
      END

".
