(** Source text, copied byte for byte: src/hblas/fortran/hblas3/*.f (a double quote would be doubled; there is none). *)
From Coq Require Import String.
Local Open Scope string_scope.
(** src/hblas/fortran/hblas3/hgemmdd.f, all 601 lines *)
Definition src_hgemmdd : string := "C 
C     This file is a part of HAXX
C     
C     Copyright (c) 2017 David Williams-Young
C     All rights reserved.
C     
C     See LICENSE.txt 
C
#define HBLAS_USE_COMPLEX
      Subroutine HGEMMDD(TRANSA, TRANSB, M, N, K, ALPHA, A, LDA,
     $  B, LDB, BETA, C, LDC)
C
      LOGICAL LSAME
      EXTERNAL LSAME
C
      CHARACTER TRANSA, TRANSB
      LOGICAL   NOTA, NOTB, CONJA, CONJB, AZERO, AONE,
     $          BZERO, BONE
      INTEGER*4 M,N,K, LDA,LDB,LDC, I,J,L
      REAL*8    ALPHA, BETA
#ifndef HBLAS_USE_COMPLEX
      REAL*8    A(4,LDA,*), B(4,LDB,*), C(4,LDC,*)
C
      REAL*8    HTMPS, HTMPI, HTMPJ, HTMPK
C
      REAL*8    ONE, ZERO
      PARAMETER (ONE=1.0D+0, ZERO=0.0D+0)
#else
      Complex*16    A(2,LDA,*), B(2,LDB,*), C(2,LDC,*)
C
      COMPLEX*16    HTMPS, HTMPJ
C
      COMPLEX*16    ONE, ZERO
      PARAMETER (ONE=(1.0D+0,0.0D+0), ZERO=(0.0D+0,0.0D+0))
#endif
C
      NOTA  = LSAME(TRANSA,'N')
      NOTB  = LSAME(TRANSB,'N')
      CONJA = LSAME(TRANSA,'C')
      CONJB = LSAME(TRANSB,'C')

      AZERO = ALPHA.EQ.ZERO
      AONE  = ALPHA.EQ.ONE
      BZERO = BETA.EQ.ZERO
      BONE  = BETA.EQ.ONE

C
C     Quick Return
C
      If ( (M.EQ.0) .OR. (N.EQ.0) ) RETURN
      If ( (AZERO .OR. (K.EQ.0)) .AND. BONE ) RETURN

C
C     ALPHA.EQ.ZERO
C
      IF ( AZERO ) THEN
        IF ( BZERO ) THEN
          DO 10 J = 1,N
          DO 10 I = 1,M
            C(1,I,J) = ZERO
            C(2,I,J) = ZERO
#ifndef HBLAS_USE_COMPLEX
            C(3,I,J) = ZERO
            C(4,I,J) = ZERO
#endif
  10      CONTINUE
        ELSE
          DO 20 J = 1,N
          DO 20 I = 1,M
            C(1,I,J) = BETA * C(1,I,J) 
            C(2,I,J) = BETA * C(2,I,J) 
#ifndef HBLAS_USE_COMPLEX
            C(3,I,J) = BETA * C(3,I,J) 
            C(4,I,J) = BETA * C(4,I,J) 
#endif
  20      CONTINUE
        ENDIF
        RETURN ! Nothing more to do
      ENDIF
C
      IF ( NOTB ) THEN
        IF ( NOTA ) THEN
C
C       C_{IJ} = ALPHA * A_{IK} * B_{KJ} + BETA * C_{IJ}
C
          DO 30 J = 1,N
            IF ( BZERO ) THEN
              DO 40 I = 1,M
                C(1,I,J) = ZERO
                C(2,I,J) = ZERO
#ifndef HBLAS_USE_COMPLEX
                C(3,I,J) = ZERO
                C(4,I,J) = ZERO
#endif
  40          CONTINUE
            ELSEIF ( .NOT. BONE ) THEN
              DO 50 I = 1,M
                C(1,I,J) = BETA * C(1,I,J) 
                C(2,I,J) = BETA * C(2,I,J) 
#ifndef HBLAS_USE_COMPLEX
                C(3,I,J) = BETA * C(3,I,J) 
                C(4,I,J) = BETA * C(4,I,J) 
#endif
  50          CONTINUE
            ENDIF
C
            DO 60 L = 1,K
              HTMPS = ALPHA * B(1,L,J)
#ifndef HBLAS_USE_COMPLEX
              HTMPI = ALPHA * B(2,L,J)
              HTMPJ = ALPHA * B(3,L,J)
              HTMPK = ALPHA * B(4,L,J)
#else
              HTMPJ = ALPHA * B(2,L,J)
#endif
              DO 70 I = 1,M
C               Hamilton Product
#ifndef HBLAS_USE_COMPLEX
                C(1,I,J) = C(1,I,J) + 
     $            A(1,I,L)*HTMPS - A(2,I,L)*HTMPI - 
     $            A(3,I,L)*HTMPJ - A(4,I,L)*HTMPK

                C(2,I,J) = C(2,I,J) + 
     $            A(1,I,L)*HTMPI + A(2,I,L)*HTMPS +
     $            A(3,I,L)*HTMPK - A(4,I,L)*HTMPJ

                C(3,I,J) = C(3,I,J) + 
     $            A(1,I,L)*HTMPJ - A(2,I,L)*HTMPK +
     $            A(3,I,L)*HTMPS + A(4,I,L)*HTMPI

                C(4,I,J) = C(4,I,J) + 
     $            A(1,I,L)*HTMPK + A(2,I,L)*HTMPJ -
     $            A(3,I,L)*HTMPI + A(4,I,L)*HTMPS
#else
                C(1,I,J) = C(1,I,J) + 
     $            A(1,I,L)*HTMPS - A(2,I,L)*CONJG(HTMPJ)
                C(2,I,J) = C(2,I,J) + 
     $            A(1,I,L)*HTMPJ + A(2,I,L)*CONJG(HTMPS)
#endif
  70          CONTINUE
  60        CONTINUE
  30      CONTINUE
        ELSE IF ( CONJA ) THEN
C
C         C_{IJ} = ALPHA * CONJ(A_{KI}) * B_{KJ} + BETA * C_{IJ}
C
          DO 80 J = 1,N
          DO 80 I = 1,M
            HTMPS = ZERO 
            HTMPJ = ZERO 
#ifndef HBLAS_USE_COMPLEX
            HTMPI = ZERO 
            HTMPK = ZERO 
#endif
            DO 90 L = 1,K
C             Hamilton Product (IMPLIED CONJ(A))
#ifndef HBLAS_USE_COMPLEX
              HTMPS = HTMPS + A(1,L,I)*B(1,L,J) + A(2,L,I)*B(2,L,J) +
     $                        A(3,L,I)*B(3,L,J) + A(4,L,I)*B(4,L,J)

              HTMPI = HTMPI + A(1,L,I)*B(2,L,J) - A(2,L,I)*B(1,L,J) -
     $                        A(3,L,I)*B(4,L,J) + A(4,L,I)*B(3,L,J)

              HTMPJ = HTMPJ + A(1,L,I)*B(3,L,J) + A(2,L,I)*B(4,L,J) -
     $                        A(3,L,I)*B(1,L,J) - A(4,L,I)*B(2,L,J)

              HTMPK = HTMPK + A(1,L,I)*B(4,L,J) - A(2,L,I)*B(3,L,J) +
     $                        A(3,L,I)*B(2,L,J) - A(4,L,I)*B(1,L,J)
#else
              HTMPS = HTMPS + 
     $          CONJG(A(1,L,I))*B(1,L,J) + A(2,L,I)*CONJG(B(2,L,J))
              HTMPJ = HTMPJ + 
     $          CONJG(A(1,L,I))*B(2,L,J) - A(2,L,I)*CONJG(B(1,L,J))
#endif
  90        CONTINUE
C
            IF( BZERO ) THEN
              C(1,I,J) = ALPHA * HTMPS
#ifndef HBLAS_USE_COMPLEX
              C(2,I,J) = ALPHA * HTMPI
              C(3,I,J) = ALPHA * HTMPJ
              C(4,I,J) = ALPHA * HTMPK
#else
              C(2,I,J) = ALPHA * HTMPJ
#endif
            ELSE
              C(1,I,J) = ALPHA * HTMPS + BETA * C(1,I,J)
#ifndef HBLAS_USE_COMPLEX
              C(2,I,J) = ALPHA * HTMPI + BETA * C(2,I,J)
              C(3,I,J) = ALPHA * HTMPJ + BETA * C(3,I,J)
              C(4,I,J) = ALPHA * HTMPK + BETA * C(4,I,J)
#else
              C(2,I,J) = ALPHA * HTMPJ + BETA * C(2,I,J)
#endif
            ENDIF
  80      CONTINUE
        ELSE
C         IMPLIES TRANSA == 'T'
C
C         C_{IJ} = ALPHA * A_{KI} * B_{KJ} + BETA * C_{IJ}
C
          DO 100 J = 1,N
          DO 100 I = 1,M
            HTMPS = ZERO 
            HTMPJ = ZERO 
#ifndef HBLAS_USE_COMPLEX
            HTMPI = ZERO 
            HTMPK = ZERO 
#endif
            DO 110 L = 1,K
C             Hamilton Product
#ifndef HBLAS_USE_COMPLEX
              HTMPS = HTMPS + A(1,L,I)*B(1,L,J) - A(2,L,I)*B(2,L,J) -
     $                        A(3,L,I)*B(3,L,J) - A(4,L,I)*B(4,L,J)

              HTMPI = HTMPI + A(1,L,I)*B(2,L,J) + A(2,L,I)*B(1,L,J) +
     $                        A(3,L,I)*B(4,L,J) - A(4,L,I)*B(3,L,J)

              HTMPJ = HTMPJ + A(1,L,I)*B(3,L,J) - A(2,L,I)*B(4,L,J) +
     $                        A(3,L,I)*B(1,L,J) + A(4,L,I)*B(2,L,J)

              HTMPK = HTMPK + A(1,L,I)*B(4,L,J) + A(2,L,I)*B(3,L,J) -
     $                        A(3,L,I)*B(2,L,J) + A(4,L,I)*B(1,L,J)
#else
              HTMPS = HTMPS + 
     $          A(1,L,I)*B(1,L,J) - A(2,L,I)*CONJG(B(2,L,J))
              HTMPJ = HTMPJ + 
     $          A(1,L,I)*B(2,L,J) + A(2,L,I)*CONJG(B(1,L,J))
#endif
  110       CONTINUE

            IF( BZERO ) THEN
              C(1,I,J) = ALPHA * HTMPS
#ifndef HBLAS_USE_COMPLEX
              C(2,I,J) = ALPHA * HTMPI
              C(3,I,J) = ALPHA * HTMPJ
              C(4,I,J) = ALPHA * HTMPK
#else
              C(2,I,J) = ALPHA * HTMPJ
#endif
            ELSE
              C(1,I,J) = ALPHA * HTMPS + BETA * C(1,I,J)
#ifndef HBLAS_USE_COMPLEX
              C(2,I,J) = ALPHA * HTMPI + BETA * C(2,I,J)
              C(3,I,J) = ALPHA * HTMPJ + BETA * C(3,I,J)
              C(4,I,J) = ALPHA * HTMPK + BETA * C(4,I,J)
#else
              C(2,I,J) = ALPHA * HTMPJ + BETA * C(2,I,J)
#endif
            ENDIF
  100     CONTINUE
        ENDIF
      ELSE IF ( NOTA ) THEN
        IF ( CONJB ) THEN
C
C         C_{IJ} = ALPHA * A_{IK} * CONJ(B_{JK}) + BETA * C_{IJ}
C
          DO 120 J = 1,N
            IF ( BZERO ) THEN
              DO 130 I = 1,M
                C(1,I,J) = ZERO
                C(2,I,J) = ZERO
#ifndef HBLAS_USE_COMPLEX
                C(3,I,J) = ZERO
                C(4,I,J) = ZERO
#endif
  130         CONTINUE
            ELSEIF ( .NOT. BONE ) THEN
              DO 140 I = 1,M
                C(1,I,J) = BETA * C(1,I,J) 
                C(2,I,J) = BETA * C(2,I,J) 
#ifndef HBLAS_USE_COMPLEX
                C(3,I,J) = BETA * C(3,I,J) 
                C(4,I,J) = BETA * C(4,I,J) 
#endif
  140         CONTINUE
            ENDIF
C
            DO 150 L = 1,K
#ifndef HBLAS_USE_COMPLEX
              HTMPS =  ALPHA * B(1,J,L)
              HTMPI = -ALPHA * B(2,J,L)
              HTMPJ = -ALPHA * B(3,J,L)
              HTMPK = -ALPHA * B(4,J,L)
#else
              HTMPS =  ALPHA * CONJG(B(1,J,L))
              HTMPJ = -ALPHA * B(2,J,L)
#endif
              DO 160 I = 1,M
C               Hamilton Product
#ifndef HBLAS_USE_COMPLEX
                C(1,I,J) = C(1,I,J) + 
     $            A(1,I,L)*HTMPS - A(2,I,L)*HTMPI -
     $            A(3,I,L)*HTMPJ - A(4,I,L)*HTMPK

                C(2,I,J) = C(2,I,J) + 
     $            A(1,I,L)*HTMPI + A(2,I,L)*HTMPS +
     $            A(3,I,L)*HTMPK - A(4,I,L)*HTMPJ

                C(3,I,J) = C(3,I,J) + 
     $            A(1,I,L)*HTMPJ - A(2,I,L)*HTMPK +
     $            A(3,I,L)*HTMPS + A(4,I,L)*HTMPI

                C(4,I,J) = C(4,I,J) + 
     $            A(1,I,L)*HTMPK + A(2,I,L)*HTMPJ -
     $            A(3,I,L)*HTMPI + A(4,I,L)*HTMPS
#else
                C(1,I,J) = C(1,I,J) + 
     $            A(1,I,L)*HTMPS - A(2,I,L)*CONJG(HTMPJ)
                C(2,I,J) = C(2,I,J) + 
     $            A(1,I,L)*HTMPJ + A(2,I,L)*CONJG(HTMPS)
#endif
  160         CONTINUE
  150       CONTINUE
  120     CONTINUE
        ELSE
C         Implies TRANSB == 'T'
C
C         C_{IJ} = ALPHA * A_{IK} * B_{JK} + BETA * C_{IJ}
C
          DO 170 J = 1,N
            IF ( BZERO ) THEN
              DO 180 I = 1,M
                C(1,I,J) = ZERO
                C(2,I,J) = ZERO
#ifndef HBLAS_USE_COMPLEX
                C(3,I,J) = ZERO
                C(4,I,J) = ZERO
#endif
  180         CONTINUE
            ELSEIF ( .NOT. BONE ) THEN
              DO 190 I = 1,M
                C(1,I,J) = BETA * C(1,I,J) 
                C(2,I,J) = BETA * C(2,I,J) 
#ifndef HBLAS_USE_COMPLEX
                C(3,I,J) = BETA * C(3,I,J) 
                C(4,I,J) = BETA * C(4,I,J) 
#endif
  190         CONTINUE
            ENDIF
C
            DO 200 L = 1,K
              HTMPS = ALPHA * B(1,J,L)
#ifndef HBLAS_USE_COMPLEX
              HTMPI = ALPHA * B(2,J,L)
              HTMPJ = ALPHA * B(3,J,L)
              HTMPK = ALPHA * B(4,J,L)
#else
              HTMPJ = ALPHA * B(2,J,L)
#endif
              DO 210 I = 1,M
C               Hamilton Product
#ifndef HBLAS_USE_COMPLEX
                C(1,I,J) = C(1,I,J) + 
     $            A(1,I,L)*HTMPS - A(2,I,L)*HTMPI -
     $            A(3,I,L)*HTMPJ - A(4,I,L)*HTMPK

                C(2,I,J) = C(2,I,J) + 
     $            A(1,I,L)*HTMPI + A(2,I,L)*HTMPS +
     $            A(3,I,L)*HTMPK - A(4,I,L)*HTMPJ

                C(3,I,J) = C(3,I,J) + 
     $            A(1,I,L)*HTMPJ - A(2,I,L)*HTMPK +
     $            A(3,I,L)*HTMPS + A(4,I,L)*HTMPI

                C(4,I,J) = C(4,I,J) + 
     $            A(1,I,L)*HTMPK + A(2,I,L)*HTMPJ -
     $            A(3,I,L)*HTMPI + A(4,I,L)*HTMPS
#else
                C(1,I,J) = C(1,I,J) + 
     $            A(1,I,L)*HTMPS - A(2,I,L)*CONJG(HTMPJ)
                C(2,I,J) = C(2,I,J) + 
     $            A(1,I,L)*HTMPJ + A(2,I,L)*CONJG(HTMPS)
#endif
  210         CONTINUE
  200       CONTINUE
  170     CONTINUE
        ENDIF
      ELSE IF ( CONJA ) THEN
        IF ( CONJB ) THEN
C
C         C_{IJ} = ALPHA * CONJ(A_{KI}) * CONJ(B_{JK}) + BETA * C_{IJ}
C
          DO 220 J = 1,N
          DO 220 I = 1,M
            HTMPS = ZERO 
            HTMPJ = ZERO 
#ifndef HBLAS_USE_COMPLEX
            HTMPI = ZERO 
            HTMPK = ZERO 
#endif
            DO 230 L = 1,K
C             Hamilton Product (IMPLIED CONJ(A) + CONJ(B))
#ifndef HBLAS_USE_COMPLEX
              HTMPS = HTMPS + A(1,L,I)*B(1,J,L) - A(2,L,I)*B(2,J,L) -
     $                        A(3,L,I)*B(3,J,L) - A(4,L,I)*B(4,J,L)

              HTMPI = HTMPI - A(1,L,I)*B(2,J,L) - A(2,L,I)*B(1,J,L) +
     $                        A(3,L,I)*B(4,J,L) - A(4,L,I)*B(3,J,L)

              HTMPJ = HTMPJ - A(1,L,I)*B(3,J,L) - A(2,L,I)*B(4,J,L) -
     $                        A(3,L,I)*B(1,J,L) + A(4,L,I)*B(2,J,L)

              HTMPK = HTMPK - A(1,L,I)*B(4,J,L) + A(2,L,I)*B(3,J,L) -
     $                        A(3,L,I)*B(2,J,L) - A(4,L,I)*B(1,J,L)
#else
              HTMPS = HTMPS + 
     $          CONJG(A(1,L,I))*CONJG(B(1,J,L)) - 
     $          A(2,L,I)*CONJG(B(2,J,L))
              HTMPJ = HTMPJ - 
     $          CONJG(A(1,L,I))*B(2,J,L) - A(2,L,I)*B(1,J,L)
#endif
  230       CONTINUE
C
            IF( BZERO ) THEN
              C(1,I,J) = ALPHA * HTMPS
#ifndef HBLAS_USE_COMPLEX
              C(2,I,J) = ALPHA * HTMPI
              C(3,I,J) = ALPHA * HTMPJ
              C(4,I,J) = ALPHA * HTMPK
#else
              C(2,I,J) = ALPHA * HTMPJ
#endif
            ELSE
              C(1,I,J) = ALPHA * HTMPS + BETA * C(1,I,J)
#ifndef HBLAS_USE_COMPLEX
              C(2,I,J) = ALPHA * HTMPI + BETA * C(2,I,J)
              C(3,I,J) = ALPHA * HTMPJ + BETA * C(3,I,J)
              C(4,I,J) = ALPHA * HTMPK + BETA * C(4,I,J)
#else
              C(2,I,J) = ALPHA * HTMPJ + BETA * C(2,I,J)
#endif
            ENDIF
  220     CONTINUE
        ELSE
C         Implies TRANSB == 'T'
C
C         C_{IJ} = ALPHA * CONJ(A_{KI}) * B_{JK} + BETA * C_{IJ}
C
          DO 240 J = 1,N
          DO 240 I = 1,M
            HTMPS = ZERO 
            HTMPJ = ZERO 
#ifndef HBLAS_USE_COMPLEX
            HTMPI = ZERO 
            HTMPK = ZERO 
#endif
            DO 250 L = 1,K
C             Hamilton Product (IMPLIED CONJ(A))
#ifndef HBLAS_USE_COMPLEX
              HTMPS = HTMPS + A(1,L,I)*B(1,J,L) + A(2,L,I)*B(2,J,L) +
     $                        A(3,L,I)*B(3,J,L) + A(4,L,I)*B(4,J,L)
                                               
              HTMPI = HTMPI + A(1,L,I)*B(2,J,L) - A(2,L,I)*B(1,J,L) -
     $                        A(3,L,I)*B(4,J,L) + A(4,L,I)*B(3,J,L)
                                               
              HTMPJ = HTMPJ + A(1,L,I)*B(3,J,L) + A(2,L,I)*B(4,J,L) -
     $                        A(3,L,I)*B(1,J,L) - A(4,L,I)*B(2,J,L)
                                               
              HTMPK = HTMPK + A(1,L,I)*B(4,J,L) - A(2,L,I)*B(3,J,L) +
     $                        A(3,L,I)*B(2,J,L) - A(4,L,I)*B(1,J,L)
#else
              HTMPS = HTMPS + 
     $          CONJG(A(1,L,I))*B(1,J,L) + A(2,L,I)*CONJG(B(2,J,L))
              HTMPJ = HTMPJ + 
     $          CONJG(A(1,L,I))*B(2,J,L) - A(2,L,I)*CONJG(B(1,J,L))
#endif
  250       CONTINUE
C
            IF( BZERO ) THEN
              C(1,I,J) = ALPHA * HTMPS
#ifndef HBLAS_USE_COMPLEX
              C(2,I,J) = ALPHA * HTMPI
              C(3,I,J) = ALPHA * HTMPJ
              C(4,I,J) = ALPHA * HTMPK
#else
              C(2,I,J) = ALPHA * HTMPJ
#endif
            ELSE
              C(1,I,J) = ALPHA * HTMPS + BETA * C(1,I,J)
#ifndef HBLAS_USE_COMPLEX
              C(2,I,J) = ALPHA * HTMPI + BETA * C(2,I,J)
              C(3,I,J) = ALPHA * HTMPJ + BETA * C(3,I,J)
              C(4,I,J) = ALPHA * HTMPK + BETA * C(4,I,J)
#else
              C(2,I,J) = ALPHA * HTMPJ + BETA * C(2,I,J)
#endif
            ENDIF
  240     CONTINUE
        ENDIF
      ELSE
C       Implies TRANSA == 'T'
        IF ( CONJB ) THEN
C
C         C_{IJ} = ALPHA * A_{KI} * CONJ(B_{JK}) + BETA * C_{IJ}
C
          DO 260 J = 1,N
          DO 260 I = 1,M
            HTMPS = ZERO 
            HTMPI = ZERO 
            HTMPJ = ZERO 
            HTMPK = ZERO 
            DO 270 L = 1,K
C             Hamilton Product (IMPLIED CONJ(B))
#ifndef HBLAS_USE_COMPLEX
              HTMPS = HTMPS + A(1,L,I)*B(1,J,L) + A(2,L,I)*B(2,J,L) +
     $                        A(3,L,I)*B(3,J,L) + A(4,L,I)*B(4,J,L)

              HTMPI = HTMPI - A(1,L,I)*B(2,J,L) + A(2,L,I)*B(1,J,L) -
     $                        A(3,L,I)*B(4,J,L) + A(4,L,I)*B(3,J,L)

              HTMPJ = HTMPJ - A(1,L,I)*B(3,J,L) + A(2,L,I)*B(4,J,L) +
     $                        A(3,L,I)*B(1,J,L) - A(4,L,I)*B(2,J,L)

              HTMPK = HTMPK - A(1,L,I)*B(4,J,L) - A(2,L,I)*B(3,J,L) +
     $                        A(3,L,I)*B(2,J,L) + A(4,L,I)*B(1,J,L)
#else
              HTMPS = HTMPS + 
     $          A(1,L,I)*CONJG(B(1,J,L)) + A(2,L,I)*CONJG(B(2,J,L))
              HTMPJ = HTMPJ - 
     $          A(1,L,I)*B(2,J,L) + A(2,L,I)*B(1,J,L)
#endif
  270       CONTINUE

            IF( BZERO ) THEN
              C(1,I,J) = ALPHA * HTMPS
#ifndef HBLAS_USE_COMPLEX
              C(2,I,J) = ALPHA * HTMPI
              C(3,I,J) = ALPHA * HTMPJ
              C(4,I,J) = ALPHA * HTMPK
#else
              C(2,I,J) = ALPHA * HTMPJ
#endif
            ELSE
              C(1,I,J) = ALPHA * HTMPS + BETA * C(1,I,J)
#ifndef HBLAS_USE_COMPLEX
              C(2,I,J) = ALPHA * HTMPI + BETA * C(2,I,J)
              C(3,I,J) = ALPHA * HTMPJ + BETA * C(3,I,J)
              C(4,I,J) = ALPHA * HTMPK + BETA * C(4,I,J)
#else
              C(2,I,J) = ALPHA * HTMPJ + BETA * C(2,I,J)
#endif
            ENDIF
  260     CONTINUE
        ELSE
C
C         C_{IJ} = ALPHA * A_{KI} * B_{JK} + BETA * C_{IJ}
C
          DO 280 J = 1,N
          DO 280 I = 1,M
            HTMPS = ZERO 
            HTMPJ = ZERO 
#ifndef HBLAS_USE_COMPLEX
            HTMPI = ZERO 
            HTMPK = ZERO 
#endif
            DO 290 L = 1,K
C             Hamilton Product
#ifndef HBLAS_USE_COMPLEX
              HTMPS = HTMPS + A(1,L,I)*B(1,J,L) - A(2,L,I)*B(2,J,L) -
     $                        A(3,L,I)*B(3,J,L) - A(4,L,I)*B(4,J,L)

              HTMPI = HTMPI + A(1,L,I)*B(2,J,L) + A(2,L,I)*B(1,J,L) +
     $                        A(3,L,I)*B(4,J,L) - A(4,L,I)*B(3,J,L)

              HTMPJ = HTMPJ + A(1,L,I)*B(3,J,L) - A(2,L,I)*B(4,J,L) +
     $                        A(3,L,I)*B(1,J,L) + A(4,L,I)*B(2,J,L)

              HTMPK = HTMPK + A(1,L,I)*B(4,J,L) + A(2,L,I)*B(3,J,L) -
     $                        A(3,L,I)*B(2,J,L) + A(4,L,I)*B(1,J,L)
#else
              HTMPS = HTMPS + 
     $          A(1,L,I)*B(1,J,L) - A(2,L,I)*CONJG(B(2,J,L))
              HTMPJ = HTMPJ + 
     $          A(1,L,I)*B(2,J,L) + A(2,L,I)*CONJG(B(1,J,L))
#endif
  290       CONTINUE

            IF( BZERO ) THEN
              C(1,I,J) = ALPHA * HTMPS
#ifndef HBLAS_USE_COMPLEX
              C(2,I,J) = ALPHA * HTMPI
              C(3,I,J) = ALPHA * HTMPJ
              C(4,I,J) = ALPHA * HTMPK
#else
              C(2,I,J) = ALPHA * HTMPJ
#endif
            ELSE
              C(1,I,J) = ALPHA * HTMPS + BETA * C(1,I,J)
#ifndef HBLAS_USE_COMPLEX
              C(2,I,J) = ALPHA * HTMPI + BETA * C(2,I,J)
              C(3,I,J) = ALPHA * HTMPJ + BETA * C(3,I,J)
              C(4,I,J) = ALPHA * HTMPK + BETA * C(4,I,J)
#else
              C(2,I,J) = ALPHA * HTMPJ + BETA * C(2,I,J)
#endif
            ENDIF
  280     CONTINUE
        ENDIF
      ENDIF
      END
".
(** src/hblas/fortran/hblas3/hgemmdh.f, all 798 lines *)
Definition src_hgemmdh : string := "C 
C     This file is a part of HAXX
C     
C     Copyright (c) 2017 David Williams-Young
C     All rights reserved.
C     
C     See LICENSE.txt 
C
#define HBLAS_USE_COMPLEX
      Subroutine HGEMMDH(TRANSA, TRANSB, M, N, K, ALPHA, A, LDA,
     $  B, LDB, BETA, C, LDC)
C
      LOGICAL LSAME
      EXTERNAL LSAME
C
      CHARACTER TRANSA, TRANSB
      LOGICAL   NOTA, NOTB, CONJA, CONJB, AZERO, AONE,
     $          BZERO, BONE
      INTEGER*4 M,N,K, LDA,LDB,LDC, I,J,L
      REAL*8    ALPHA
#ifndef HBLAS_USE_COMPLEX
      REAL*8    A(4,LDA,*), B(4,LDB,*), C(4,LDC,*), BETA(4)
C
      REAL*8    HTMPS, HTMPI, HTMPJ, HTMPK
C
      REAL*8    ONE, ZERO
      PARAMETER (ONE=1.0D+0, ZERO=0.0D+0)
#else
      Complex*16    A(2,LDA,*), B(2,LDB,*), C(2,LDC,*), BETA(2)
C
      COMPLEX*16    HTMPS, HTMPJ
C
      COMPLEX*16    ONE, ZERO
      PARAMETER (ONE=(1.0D+0,0.0D+0), ZERO=(0.0D+0,0.0D+0))
#endif
C
      NOTA  = LSAME(TRANSA,'N')
      NOTB  = LSAME(TRANSB,'N')
      CONJA = LSAME(TRANSA,'C')
      CONJB = LSAME(TRANSB,'C')

      AZERO = ALPHA.EQ.ZERO
      AONE  = ALPHA.EQ.ONE
#ifndef HBLAS_USE_COMPLEX
      BZERO = (BETA(1).EQ.ZERO).AND.(BETA(2).EQ.ZERO)
     $    .AND.(BETA(3).EQ.ZERO).AND.(BETA(4).EQ.ZERO)
      BONE = (BETA(1).EQ.ONE).AND.(BETA(2).EQ.ZERO)
     $    .AND.(BETA(3).EQ.ZERO).AND.(BETA(4).EQ.ZERO)
#else
      BZERO = (BETA(1).EQ.ZERO).AND.(BETA(2).EQ.ZERO)
      BONE = (BETA(1).EQ.ONE).AND.(BETA(2).EQ.ZERO)
#endif

C
C     Quick Return
C
      If ( (M.EQ.0) .OR. (N.EQ.0) ) RETURN
      If ( (AZERO .OR. (K.EQ.0)) .AND. BONE ) RETURN

C
C     ALPHA.EQ.ZERO
C
      IF ( AZERO ) THEN
        IF ( BZERO ) THEN
          DO 10 J = 1,N
          DO 10 I = 1,M
            C(1,I,J) = ZERO
            C(2,I,J) = ZERO
#ifndef HBLAS_USE_COMPLEX
            C(3,I,J) = ZERO
            C(4,I,J) = ZERO
#endif
  10      CONTINUE
        ELSE
          DO 20 J = 1,N
          DO 20 I = 1,M
#ifndef HBLAS_USE_COMPLEX
            HTMPS = HTMPS + 
     $        BETA(1)*C(1,I,J) - BETA(2)*C(2,I,J) - 
     $        BETA(3)*C(3,I,J) - BETA(4)*C(4,I,J)

            HTMPI = HTMPI + 
     $        BETA(1)*C(2,I,J) + BETA(2)*C(1,I,J) +
     $        BETA(3)*C(4,I,J) - BETA(4)*C(3,I,J)

            HTMPJ = HTMPJ + 
     $        BETA(1)*C(3,I,J) - BETA(2)*C(4,I,J) +
     $        BETA(3)*C(1,I,J) + BETA(4)*C(2,I,J)

            C(4,I,J) = C(4,I,J) + 
     $        BETA(1)*C(4,I,J) + BETA(2)*C(3,I,J) -
     $        BETA(3)*C(2,I,J) + BETA(4)*C(1,I,J)
           
            C(3,I,J) = HTMPJ
            C(2,I,J) = HTMPI
            C(1,I,J) = HTMPS
#else
            HTMPS    = BETA(1)*C(1,I,J) - BETA(2)*CONJG(C(2,I,J))
            C(2,I,J) = BETA(1)*C(2,I,J) + BETA(2)*CONJG(C(1,I,J))
            C(1,I,J) = HTMPS
#endif
  20      CONTINUE
        ENDIF
        RETURN ! Nothing more to do
      ENDIF
C
      IF ( NOTB ) THEN
        IF ( NOTA ) THEN
C
C       C_{IJ} = ALPHA * A_{IK} * B_{KJ} + BETA * C_{IJ}
C
          DO 30 J = 1,N
            IF ( BZERO ) THEN
              DO 40 I = 1,M
                C(1,I,J) = ZERO
                C(2,I,J) = ZERO
#ifndef HBLAS_USE_COMPLEX
                C(3,I,J) = ZERO
                C(4,I,J) = ZERO
#endif
  40          CONTINUE
            ELSEIF ( .NOT. BONE ) THEN
              DO 50 I = 1,M
#ifndef HBLAS_USE_COMPLEX
                HTMPS = HTMPS + 
     $            BETA(1)*C(1,I,J) - BETA(2)*C(2,I,J) - 
     $            BETA(3)*C(3,I,J) - BETA(4)*C(4,I,J)

                HTMPI = HTMPI + 
     $            BETA(1)*C(2,I,J) + BETA(2)*C(1,I,J) +
     $            BETA(3)*C(4,I,J) - BETA(4)*C(3,I,J)

                HTMPJ = HTMPJ + 
     $            BETA(1)*C(3,I,J) - BETA(2)*C(4,I,J) +
     $            BETA(3)*C(1,I,J) + BETA(4)*C(2,I,J)

                C(4,I,J) = C(4,I,J) + 
     $            BETA(1)*C(4,I,J) + BETA(2)*C(3,I,J) -
     $            BETA(3)*C(2,I,J) + BETA(4)*C(1,I,J)
           
                C(3,I,J) = HTMPJ
                C(2,I,J) = HTMPI
                C(1,I,J) = HTMPS
#else
                HTMPS    = BETA(1)*C(1,I,J) - BETA(2)*CONJG(C(2,I,J))
                C(2,I,J) = BETA(1)*C(2,I,J) + BETA(2)*CONJG(C(1,I,J))
                C(1,I,J) = HTMPS
#endif
  50          CONTINUE
            ENDIF
C
            DO 60 L = 1,K
              HTMPS = ALPHA * B(1,L,J)
#ifndef HBLAS_USE_COMPLEX
              HTMPI = ALPHA * B(2,L,J)
              HTMPJ = ALPHA * B(3,L,J)
              HTMPK = ALPHA * B(4,L,J)
#else
              HTMPJ = ALPHA * B(2,L,J)
#endif
              DO 70 I = 1,M
C               Hamilton Product
#ifndef HBLAS_USE_COMPLEX
                C(1,I,J) = C(1,I,J) + 
     $            A(1,I,L)*HTMPS - A(2,I,L)*HTMPI - 
     $            A(3,I,L)*HTMPJ - A(4,I,L)*HTMPK

                C(2,I,J) = C(2,I,J) + 
     $            A(1,I,L)*HTMPI + A(2,I,L)*HTMPS +
     $            A(3,I,L)*HTMPK - A(4,I,L)*HTMPJ

                C(3,I,J) = C(3,I,J) + 
     $            A(1,I,L)*HTMPJ - A(2,I,L)*HTMPK +
     $            A(3,I,L)*HTMPS + A(4,I,L)*HTMPI

                C(4,I,J) = C(4,I,J) + 
     $            A(1,I,L)*HTMPK + A(2,I,L)*HTMPJ -
     $            A(3,I,L)*HTMPI + A(4,I,L)*HTMPS
#else
                C(1,I,J) = C(1,I,J) + 
     $            A(1,I,L)*HTMPS - A(2,I,L)*CONJG(HTMPJ)
                C(2,I,J) = C(2,I,J) + 
     $            A(1,I,L)*HTMPJ + A(2,I,L)*CONJG(HTMPS)
#endif
  70          CONTINUE
  60        CONTINUE
  30      CONTINUE
        ELSE IF ( CONJA ) THEN
C
C         C_{IJ} = ALPHA * CONJ(A_{KI}) * B_{KJ} + BETA * C_{IJ}
C
          DO 80 J = 1,N
          DO 80 I = 1,M
            HTMPS = ZERO 
            HTMPJ = ZERO 
#ifndef HBLAS_USE_COMPLEX
            HTMPI = ZERO 
            HTMPK = ZERO 
#endif
            DO 90 L = 1,K
C             Hamilton Product (IMPLIED CONJ(A))
#ifndef HBLAS_USE_COMPLEX
              HTMPS = HTMPS + A(1,L,I)*B(1,L,J) + A(2,L,I)*B(2,L,J) +
     $                        A(3,L,I)*B(3,L,J) + A(4,L,I)*B(4,L,J)

              HTMPI = HTMPI + A(1,L,I)*B(2,L,J) - A(2,L,I)*B(1,L,J) -
     $                        A(3,L,I)*B(4,L,J) + A(4,L,I)*B(3,L,J)

              HTMPJ = HTMPJ + A(1,L,I)*B(3,L,J) + A(2,L,I)*B(4,L,J) -
     $                        A(3,L,I)*B(1,L,J) - A(4,L,I)*B(2,L,J)

              HTMPK = HTMPK + A(1,L,I)*B(4,L,J) - A(2,L,I)*B(3,L,J) +
     $                        A(3,L,I)*B(2,L,J) - A(4,L,I)*B(1,L,J)
#else
              HTMPS = HTMPS + 
     $          CONJG(A(1,L,I))*B(1,L,J) + A(2,L,I)*CONJG(B(2,L,J))
              HTMPJ = HTMPJ + 
     $          CONJG(A(1,L,I))*B(2,L,J) - A(2,L,I)*CONJG(B(1,L,J))
#endif
  90        CONTINUE
C
            IF( BZERO ) THEN
              C(1,I,J) = ALPHA * HTMPS
#ifndef HBLAS_USE_COMPLEX
              C(2,I,J) = ALPHA * HTMPI
              C(3,I,J) = ALPHA * HTMPJ
              C(4,I,J) = ALPHA * HTMPK
#else
              C(2,I,J) = ALPHA * HTMPJ
#endif
            ELSE
#ifndef HBLAS_USE_COMPLEX
              HTMPS = ALPHA*HTMPS + 
     $          BETA(1)*C(1,I,J) - BETA(2)*C(2,I,J) - 
     $          BETA(3)*C(3,I,J) - BETA(4)*C(4,I,J)

              HTMPI = ALPHA*HTMPI + 
     $          BETA(1)*C(2,I,J) + BETA(2)*C(1,I,J) +
     $          BETA(3)*C(4,I,J) - BETA(4)*C(3,I,J)

              HTMPJ = ALPHA*HTMPJ + 
     $          BETA(1)*C(3,I,J) - BETA(2)*C(4,I,J) +
     $          BETA(3)*C(1,I,J) + BETA(4)*C(2,I,J)

              C(4,I,J) = ALPHA*C(4,I,J) + 
     $          BETA(1)*C(4,I,J) + BETA(2)*C(3,I,J) -
     $          BETA(3)*C(2,I,J) + BETA(4)*C(1,I,J)
           
              C(3,I,J) = HTMPJ
              C(2,I,J) = HTMPI
              C(1,I,J) = HTMPS
#else
              HTMPS    = ALPHA*HTMPS + 
     $          BETA(1)*C(1,I,J) - BETA(2)*CONJG(C(2,I,J))
              C(2,I,J) = ALPHA*HTMPJ + 
     $          BETA(1)*C(2,I,J) + BETA(2)*CONJG(C(1,I,J))
              C(1,I,J) = HTMPS
#endif
            ENDIF
  80      CONTINUE
        ELSE
C         IMPLIES TRANSA == 'T'
C
C         C_{IJ} = ALPHA * A_{KI} * B_{KJ} + BETA * C_{IJ}
C
          DO 100 J = 1,N
          DO 100 I = 1,M
            HTMPS = ZERO 
            HTMPJ = ZERO 
#ifndef HBLAS_USE_COMPLEX
            HTMPI = ZERO 
            HTMPK = ZERO 
#endif
            DO 110 L = 1,K
C             Hamilton Product
#ifndef HBLAS_USE_COMPLEX
              HTMPS = HTMPS + A(1,L,I)*B(1,L,J) - A(2,L,I)*B(2,L,J) -
     $                        A(3,L,I)*B(3,L,J) - A(4,L,I)*B(4,L,J)

              HTMPI = HTMPI + A(1,L,I)*B(2,L,J) + A(2,L,I)*B(1,L,J) +
     $                        A(3,L,I)*B(4,L,J) - A(4,L,I)*B(3,L,J)

              HTMPJ = HTMPJ + A(1,L,I)*B(3,L,J) - A(2,L,I)*B(4,L,J) +
     $                        A(3,L,I)*B(1,L,J) + A(4,L,I)*B(2,L,J)

              HTMPK = HTMPK + A(1,L,I)*B(4,L,J) + A(2,L,I)*B(3,L,J) -
     $                        A(3,L,I)*B(2,L,J) + A(4,L,I)*B(1,L,J)
#else
              HTMPS = HTMPS + 
     $          A(1,L,I)*B(1,L,J) - A(2,L,I)*CONJG(B(2,L,J))
              HTMPJ = HTMPJ + 
     $          A(1,L,I)*B(2,L,J) + A(2,L,I)*CONJG(B(1,L,J))
#endif
  110       CONTINUE

            IF( BZERO ) THEN
              C(1,I,J) = ALPHA * HTMPS
#ifndef HBLAS_USE_COMPLEX
              C(2,I,J) = ALPHA * HTMPI
              C(3,I,J) = ALPHA * HTMPJ
              C(4,I,J) = ALPHA * HTMPK
#else
              C(2,I,J) = ALPHA * HTMPJ
#endif
            ELSE
#ifndef HBLAS_USE_COMPLEX
              HTMPS = ALPHA*HTMPS + 
     $          BETA(1)*C(1,I,J) - BETA(2)*C(2,I,J) - 
     $          BETA(3)*C(3,I,J) - BETA(4)*C(4,I,J)

              HTMPI = ALPHA*HTMPI + 
     $          BETA(1)*C(2,I,J) + BETA(2)*C(1,I,J) +
     $          BETA(3)*C(4,I,J) - BETA(4)*C(3,I,J)

              HTMPJ = ALPHA*HTMPJ + 
     $          BETA(1)*C(3,I,J) - BETA(2)*C(4,I,J) +
     $          BETA(3)*C(1,I,J) + BETA(4)*C(2,I,J)

              C(4,I,J) = ALPHA*C(4,I,J) + 
     $          BETA(1)*C(4,I,J) + BETA(2)*C(3,I,J) -
     $          BETA(3)*C(2,I,J) + BETA(4)*C(1,I,J)
           
              C(3,I,J) = HTMPJ
              C(2,I,J) = HTMPI
              C(1,I,J) = HTMPS
#else
              HTMPS    = ALPHA*HTMPS + 
     $          BETA(1)*C(1,I,J) - BETA(2)*CONJG(C(2,I,J))
              C(2,I,J) = ALPHA*HTMPJ + 
     $          BETA(1)*C(2,I,J) + BETA(2)*CONJG(C(1,I,J))
              C(1,I,J) = HTMPS
#endif
            ENDIF
  100     CONTINUE
        ENDIF
      ELSE IF ( NOTA ) THEN
        IF ( CONJB ) THEN
C
C         C_{IJ} = ALPHA * A_{IK} * CONJ(B_{JK}) + BETA * C_{IJ}
C
          DO 120 J = 1,N
            IF ( BZERO ) THEN
              DO 130 I = 1,M
                C(1,I,J) = ZERO
                C(2,I,J) = ZERO
#ifndef HBLAS_USE_COMPLEX
                C(3,I,J) = ZERO
                C(4,I,J) = ZERO
#endif
  130         CONTINUE
            ELSEIF ( .NOT. BONE ) THEN
              DO 140 I = 1,M
#ifndef HBLAS_USE_COMPLEX
                HTMPS = HTMPS + 
     $            BETA(1)*C(1,I,J) - BETA(2)*C(2,I,J) - 
     $            BETA(3)*C(3,I,J) - BETA(4)*C(4,I,J)

                HTMPI = HTMPI + 
     $            BETA(1)*C(2,I,J) + BETA(2)*C(1,I,J) +
     $            BETA(3)*C(4,I,J) - BETA(4)*C(3,I,J)

                HTMPJ = HTMPJ + 
     $            BETA(1)*C(3,I,J) - BETA(2)*C(4,I,J) +
     $            BETA(3)*C(1,I,J) + BETA(4)*C(2,I,J)

                C(4,I,J) = C(4,I,J) + 
     $            BETA(1)*C(4,I,J) + BETA(2)*C(3,I,J) -
     $            BETA(3)*C(2,I,J) + BETA(4)*C(1,I,J)
           
                C(3,I,J) = HTMPJ
                C(2,I,J) = HTMPI
                C(1,I,J) = HTMPS
#else
                HTMPS    = BETA(1)*C(1,I,J) - BETA(2)*CONJG(C(2,I,J))
                C(2,I,J) = BETA(1)*C(2,I,J) + BETA(2)*CONJG(C(1,I,J))
                C(1,I,J) = HTMPS
#endif
  140         CONTINUE
            ENDIF
C
            DO 150 L = 1,K
#ifndef HBLAS_USE_COMPLEX
              HTMPS =  ALPHA * B(1,J,L)
              HTMPI = -ALPHA * B(2,J,L)
              HTMPJ = -ALPHA * B(3,J,L)
              HTMPK = -ALPHA * B(4,J,L)
#else
              HTMPS =  ALPHA * CONJG(B(1,J,L))
              HTMPJ = -ALPHA * B(2,J,L)
#endif
              DO 160 I = 1,M
C               Hamilton Product
#ifndef HBLAS_USE_COMPLEX
                C(1,I,J) = C(1,I,J) + 
     $            A(1,I,L)*HTMPS - A(2,I,L)*HTMPI -
     $            A(3,I,L)*HTMPJ - A(4,I,L)*HTMPK

                C(2,I,J) = C(2,I,J) + 
     $            A(1,I,L)*HTMPI + A(2,I,L)*HTMPS +
     $            A(3,I,L)*HTMPK - A(4,I,L)*HTMPJ

                C(3,I,J) = C(3,I,J) + 
     $            A(1,I,L)*HTMPJ - A(2,I,L)*HTMPK +
     $            A(3,I,L)*HTMPS + A(4,I,L)*HTMPI

                C(4,I,J) = C(4,I,J) + 
     $            A(1,I,L)*HTMPK + A(2,I,L)*HTMPJ -
     $            A(3,I,L)*HTMPI + A(4,I,L)*HTMPS
#else
                C(1,I,J) = C(1,I,J) + 
     $            A(1,I,L)*HTMPS - A(2,I,L)*CONJG(HTMPJ)
                C(2,I,J) = C(2,I,J) + 
     $            A(1,I,L)*HTMPJ + A(2,I,L)*CONJG(HTMPS)
#endif
  160         CONTINUE
  150       CONTINUE
  120     CONTINUE
        ELSE
C         Implies TRANSB == 'T'
C
C         C_{IJ} = ALPHA * A_{IK} * B_{JK} + BETA * C_{IJ}
C
          DO 170 J = 1,N
            IF ( BZERO ) THEN
              DO 180 I = 1,M
                C(1,I,J) = ZERO
                C(2,I,J) = ZERO
#ifndef HBLAS_USE_COMPLEX
                C(3,I,J) = ZERO
                C(4,I,J) = ZERO
#endif
  180         CONTINUE
            ELSEIF ( .NOT. BONE ) THEN
              DO 190 I = 1,M
#ifndef HBLAS_USE_COMPLEX
                HTMPS = HTMPS + 
     $            BETA(1)*C(1,I,J) - BETA(2)*C(2,I,J) - 
     $            BETA(3)*C(3,I,J) - BETA(4)*C(4,I,J)

                HTMPI = HTMPI + 
     $            BETA(1)*C(2,I,J) + BETA(2)*C(1,I,J) +
     $            BETA(3)*C(4,I,J) - BETA(4)*C(3,I,J)

                HTMPJ = HTMPJ + 
     $            BETA(1)*C(3,I,J) - BETA(2)*C(4,I,J) +
     $            BETA(3)*C(1,I,J) + BETA(4)*C(2,I,J)

                C(4,I,J) = C(4,I,J) + 
     $            BETA(1)*C(4,I,J) + BETA(2)*C(3,I,J) -
     $            BETA(3)*C(2,I,J) + BETA(4)*C(1,I,J)
           
                C(3,I,J) = HTMPJ
                C(2,I,J) = HTMPI
                C(1,I,J) = HTMPS
#else
                HTMPS    = BETA(1)*C(1,I,J) - BETA(2)*CONJG(C(2,I,J))
                C(2,I,J) = BETA(1)*C(2,I,J) + BETA(2)*CONJG(C(1,I,J))
                C(1,I,J) = HTMPS
#endif
  190         CONTINUE
            ENDIF
C
            DO 200 L = 1,K
              HTMPS = ALPHA * B(1,J,L)
#ifndef HBLAS_USE_COMPLEX
              HTMPI = ALPHA * B(2,J,L)
              HTMPJ = ALPHA * B(3,J,L)
              HTMPK = ALPHA * B(4,J,L)
#else
              HTMPJ = ALPHA * B(2,J,L)
#endif
              DO 210 I = 1,M
C               Hamilton Product
#ifndef HBLAS_USE_COMPLEX
                C(1,I,J) = C(1,I,J) + 
     $            A(1,I,L)*HTMPS - A(2,I,L)*HTMPI -
     $            A(3,I,L)*HTMPJ - A(4,I,L)*HTMPK

                C(2,I,J) = C(2,I,J) + 
     $            A(1,I,L)*HTMPI + A(2,I,L)*HTMPS +
     $            A(3,I,L)*HTMPK - A(4,I,L)*HTMPJ

                C(3,I,J) = C(3,I,J) + 
     $            A(1,I,L)*HTMPJ - A(2,I,L)*HTMPK +
     $            A(3,I,L)*HTMPS + A(4,I,L)*HTMPI

                C(4,I,J) = C(4,I,J) + 
     $            A(1,I,L)*HTMPK + A(2,I,L)*HTMPJ -
     $            A(3,I,L)*HTMPI + A(4,I,L)*HTMPS
#else
                C(1,I,J) = C(1,I,J) + 
     $            A(1,I,L)*HTMPS - A(2,I,L)*CONJG(HTMPJ)
                C(2,I,J) = C(2,I,J) + 
     $            A(1,I,L)*HTMPJ + A(2,I,L)*CONJG(HTMPS)
#endif
  210         CONTINUE
  200       CONTINUE
  170     CONTINUE
        ENDIF
      ELSE IF ( CONJA ) THEN
        IF ( CONJB ) THEN
C
C         C_{IJ} = ALPHA * CONJ(A_{KI}) * CONJ(B_{JK}) + BETA * C_{IJ}
C
          DO 220 J = 1,N
          DO 220 I = 1,M
            HTMPS = ZERO 
            HTMPJ = ZERO 
#ifndef HBLAS_USE_COMPLEX
            HTMPI = ZERO 
            HTMPK = ZERO 
#endif
            DO 230 L = 1,K
C             Hamilton Product (IMPLIED CONJ(A) + CONJ(B))
#ifndef HBLAS_USE_COMPLEX
              HTMPS = HTMPS + A(1,L,I)*B(1,J,L) - A(2,L,I)*B(2,J,L) -
     $                        A(3,L,I)*B(3,J,L) - A(4,L,I)*B(4,J,L)

              HTMPI = HTMPI - A(1,L,I)*B(2,J,L) - A(2,L,I)*B(1,J,L) +
     $                        A(3,L,I)*B(4,J,L) - A(4,L,I)*B(3,J,L)

              HTMPJ = HTMPJ - A(1,L,I)*B(3,J,L) - A(2,L,I)*B(4,J,L) -
     $                        A(3,L,I)*B(1,J,L) + A(4,L,I)*B(2,J,L)

              HTMPK = HTMPK - A(1,L,I)*B(4,J,L) + A(2,L,I)*B(3,J,L) -
     $                        A(3,L,I)*B(2,J,L) - A(4,L,I)*B(1,J,L)
#else
              HTMPS = HTMPS + 
     $          CONJG(A(1,L,I))*CONJG(B(1,J,L)) - 
     $          A(2,L,I)*CONJG(B(2,J,L))
              HTMPJ = HTMPJ - 
     $          CONJG(A(1,L,I))*B(2,J,L) - A(2,L,I)*B(1,J,L)
#endif
  230       CONTINUE
C
            IF( BZERO ) THEN
              C(1,I,J) = ALPHA * HTMPS
#ifndef HBLAS_USE_COMPLEX
              C(2,I,J) = ALPHA * HTMPI
              C(3,I,J) = ALPHA * HTMPJ
              C(4,I,J) = ALPHA * HTMPK
#else
              C(2,I,J) = ALPHA * HTMPJ
#endif
            ELSE
#ifndef HBLAS_USE_COMPLEX
              HTMPS = ALPHA*HTMPS + 
     $          BETA(1)*C(1,I,J) - BETA(2)*C(2,I,J) - 
     $          BETA(3)*C(3,I,J) - BETA(4)*C(4,I,J)

              HTMPI = ALPHA*HTMPI + 
     $          BETA(1)*C(2,I,J) + BETA(2)*C(1,I,J) +
     $          BETA(3)*C(4,I,J) - BETA(4)*C(3,I,J)

              HTMPJ = ALPHA*HTMPJ + 
     $          BETA(1)*C(3,I,J) - BETA(2)*C(4,I,J) +
     $          BETA(3)*C(1,I,J) + BETA(4)*C(2,I,J)

              C(4,I,J) = ALPHA*C(4,I,J) + 
     $          BETA(1)*C(4,I,J) + BETA(2)*C(3,I,J) -
     $          BETA(3)*C(2,I,J) + BETA(4)*C(1,I,J)
           
              C(3,I,J) = HTMPJ
              C(2,I,J) = HTMPI
              C(1,I,J) = HTMPS
#else
              HTMPS    = ALPHA*HTMPS + 
     $          BETA(1)*C(1,I,J) - BETA(2)*CONJG(C(2,I,J))
              C(2,I,J) = ALPHA*HTMPJ + 
     $          BETA(1)*C(2,I,J) + BETA(2)*CONJG(C(1,I,J))
              C(1,I,J) = HTMPS
#endif
            ENDIF
  220     CONTINUE
        ELSE
C         Implies TRANSB == 'T'
C
C         C_{IJ} = ALPHA * CONJ(A_{KI}) * B_{JK} + BETA * C_{IJ}
C
          DO 240 J = 1,N
          DO 240 I = 1,M
            HTMPS = ZERO 
            HTMPJ = ZERO 
#ifndef HBLAS_USE_COMPLEX
            HTMPI = ZERO 
            HTMPK = ZERO 
#endif
            DO 250 L = 1,K
C             Hamilton Product (IMPLIED CONJ(A))
#ifndef HBLAS_USE_COMPLEX
              HTMPS = HTMPS + A(1,L,I)*B(1,J,L) + A(2,L,I)*B(2,J,L) +
     $                        A(3,L,I)*B(3,J,L) + A(4,L,I)*B(4,J,L)
                                               
              HTMPI = HTMPI + A(1,L,I)*B(2,J,L) - A(2,L,I)*B(1,J,L) -
     $                        A(3,L,I)*B(4,J,L) + A(4,L,I)*B(3,J,L)
                                               
              HTMPJ = HTMPJ + A(1,L,I)*B(3,J,L) + A(2,L,I)*B(4,J,L) -
     $                        A(3,L,I)*B(1,J,L) - A(4,L,I)*B(2,J,L)
                                               
              HTMPK = HTMPK + A(1,L,I)*B(4,J,L) - A(2,L,I)*B(3,J,L) +
     $                        A(3,L,I)*B(2,J,L) - A(4,L,I)*B(1,J,L)
#else
              HTMPS = HTMPS + 
     $          CONJG(A(1,L,I))*B(1,J,L) + A(2,L,I)*CONJG(B(2,J,L))
              HTMPJ = HTMPJ + 
     $          CONJG(A(1,L,I))*B(2,J,L) - A(2,L,I)*CONJG(B(1,J,L))
#endif
  250       CONTINUE
C
            IF( BZERO ) THEN
              C(1,I,J) = ALPHA * HTMPS
#ifndef HBLAS_USE_COMPLEX
              C(2,I,J) = ALPHA * HTMPI
              C(3,I,J) = ALPHA * HTMPJ
              C(4,I,J) = ALPHA * HTMPK
#else
              C(2,I,J) = ALPHA * HTMPJ
#endif
            ELSE
#ifndef HBLAS_USE_COMPLEX
              HTMPS = ALPHA*HTMPS + 
     $          BETA(1)*C(1,I,J) - BETA(2)*C(2,I,J) - 
     $          BETA(3)*C(3,I,J) - BETA(4)*C(4,I,J)

              HTMPI = ALPHA*HTMPI + 
     $          BETA(1)*C(2,I,J) + BETA(2)*C(1,I,J) +
     $          BETA(3)*C(4,I,J) - BETA(4)*C(3,I,J)

              HTMPJ = ALPHA*HTMPJ + 
     $          BETA(1)*C(3,I,J) - BETA(2)*C(4,I,J) +
     $          BETA(3)*C(1,I,J) + BETA(4)*C(2,I,J)

              C(4,I,J) = ALPHA*C(4,I,J) + 
     $          BETA(1)*C(4,I,J) + BETA(2)*C(3,I,J) -
     $          BETA(3)*C(2,I,J) + BETA(4)*C(1,I,J)
           
              C(3,I,J) = HTMPJ
              C(2,I,J) = HTMPI
              C(1,I,J) = HTMPS
#else
              HTMPS    = ALPHA*HTMPS + 
     $          BETA(1)*C(1,I,J) - BETA(2)*CONJG(C(2,I,J))
              C(2,I,J) = ALPHA*HTMPJ + 
     $          BETA(1)*C(2,I,J) + BETA(2)*CONJG(C(1,I,J))
              C(1,I,J) = HTMPS
#endif
            ENDIF
  240     CONTINUE
        ENDIF
      ELSE
C       Implies TRANSA == 'T'
        IF ( CONJB ) THEN
C
C         C_{IJ} = ALPHA * A_{KI} * CONJ(B_{JK}) + BETA * C_{IJ}
C
          DO 260 J = 1,N
          DO 260 I = 1,M
            HTMPS = ZERO 
            HTMPI = ZERO 
            HTMPJ = ZERO 
            HTMPK = ZERO 
            DO 270 L = 1,K
C             Hamilton Product (IMPLIED CONJ(B))
#ifndef HBLAS_USE_COMPLEX
              HTMPS = HTMPS + A(1,L,I)*B(1,J,L) + A(2,L,I)*B(2,J,L) +
     $                        A(3,L,I)*B(3,J,L) + A(4,L,I)*B(4,J,L)

              HTMPI = HTMPI - A(1,L,I)*B(2,J,L) + A(2,L,I)*B(1,J,L) -
     $                        A(3,L,I)*B(4,J,L) + A(4,L,I)*B(3,J,L)

              HTMPJ = HTMPJ - A(1,L,I)*B(3,J,L) + A(2,L,I)*B(4,J,L) +
     $                        A(3,L,I)*B(1,J,L) - A(4,L,I)*B(2,J,L)

              HTMPK = HTMPK - A(1,L,I)*B(4,J,L) - A(2,L,I)*B(3,J,L) +
     $                        A(3,L,I)*B(2,J,L) + A(4,L,I)*B(1,J,L)
#else
              HTMPS = HTMPS + 
     $          A(1,L,I)*CONJG(B(1,J,L)) + A(2,L,I)*CONJG(B(2,J,L))
              HTMPJ = HTMPJ - 
     $          A(1,L,I)*B(2,J,L) + A(2,L,I)*B(1,J,L)
#endif
  270       CONTINUE

            IF( BZERO ) THEN
              C(1,I,J) = ALPHA * HTMPS
#ifndef HBLAS_USE_COMPLEX
              C(2,I,J) = ALPHA * HTMPI
              C(3,I,J) = ALPHA * HTMPJ
              C(4,I,J) = ALPHA * HTMPK
#else
              C(2,I,J) = ALPHA * HTMPJ
#endif
            ELSE
#ifndef HBLAS_USE_COMPLEX
              HTMPS = ALPHA*HTMPS + 
     $          BETA(1)*C(1,I,J) - BETA(2)*C(2,I,J) - 
     $          BETA(3)*C(3,I,J) - BETA(4)*C(4,I,J)

              HTMPI = ALPHA*HTMPI + 
     $          BETA(1)*C(2,I,J) + BETA(2)*C(1,I,J) +
     $          BETA(3)*C(4,I,J) - BETA(4)*C(3,I,J)

              HTMPJ = ALPHA*HTMPJ + 
     $          BETA(1)*C(3,I,J) - BETA(2)*C(4,I,J) +
     $          BETA(3)*C(1,I,J) + BETA(4)*C(2,I,J)

              C(4,I,J) = ALPHA*C(4,I,J) + 
     $          BETA(1)*C(4,I,J) + BETA(2)*C(3,I,J) -
     $          BETA(3)*C(2,I,J) + BETA(4)*C(1,I,J)
           
              C(3,I,J) = HTMPJ
              C(2,I,J) = HTMPI
              C(1,I,J) = HTMPS
#else
              HTMPS    = ALPHA*HTMPS + 
     $          BETA(1)*C(1,I,J) - BETA(2)*CONJG(C(2,I,J))
              C(2,I,J) = ALPHA*HTMPJ + 
     $          BETA(1)*C(2,I,J) + BETA(2)*CONJG(C(1,I,J))
              C(1,I,J) = HTMPS
#endif
            ENDIF
  260     CONTINUE
        ELSE
C
C         C_{IJ} = ALPHA * A_{KI} * B_{JK} + BETA * C_{IJ}
C
          DO 280 J = 1,N
          DO 280 I = 1,M
            HTMPS = ZERO 
            HTMPJ = ZERO 
#ifndef HBLAS_USE_COMPLEX
            HTMPI = ZERO 
            HTMPK = ZERO 
#endif
            DO 290 L = 1,K
C             Hamilton Product
#ifndef HBLAS_USE_COMPLEX
              HTMPS = HTMPS + A(1,L,I)*B(1,J,L) - A(2,L,I)*B(2,J,L) -
     $                        A(3,L,I)*B(3,J,L) - A(4,L,I)*B(4,J,L)

              HTMPI = HTMPI + A(1,L,I)*B(2,J,L) + A(2,L,I)*B(1,J,L) +
     $                        A(3,L,I)*B(4,J,L) - A(4,L,I)*B(3,J,L)

              HTMPJ = HTMPJ + A(1,L,I)*B(3,J,L) - A(2,L,I)*B(4,J,L) +
     $                        A(3,L,I)*B(1,J,L) + A(4,L,I)*B(2,J,L)

              HTMPK = HTMPK + A(1,L,I)*B(4,J,L) + A(2,L,I)*B(3,J,L) -
     $                        A(3,L,I)*B(2,J,L) + A(4,L,I)*B(1,J,L)
#else
              HTMPS = HTMPS + 
     $          A(1,L,I)*B(1,J,L) - A(2,L,I)*CONJG(B(2,J,L))
              HTMPJ = HTMPJ + 
     $          A(1,L,I)*B(2,J,L) + A(2,L,I)*CONJG(B(1,J,L))
#endif
  290       CONTINUE

            IF( BZERO ) THEN
              C(1,I,J) = ALPHA * HTMPS
#ifndef HBLAS_USE_COMPLEX
              C(2,I,J) = ALPHA * HTMPI
              C(3,I,J) = ALPHA * HTMPJ
              C(4,I,J) = ALPHA * HTMPK
#else
              C(2,I,J) = ALPHA * HTMPJ
#endif
            ELSE
#ifndef HBLAS_USE_COMPLEX
              HTMPS = ALPHA*HTMPS + 
     $          BETA(1)*C(1,I,J) - BETA(2)*C(2,I,J) - 
     $          BETA(3)*C(3,I,J) - BETA(4)*C(4,I,J)

              HTMPI = ALPHA*HTMPI + 
     $          BETA(1)*C(2,I,J) + BETA(2)*C(1,I,J) +
     $          BETA(3)*C(4,I,J) - BETA(4)*C(3,I,J)

              HTMPJ = ALPHA*HTMPJ + 
     $          BETA(1)*C(3,I,J) - BETA(2)*C(4,I,J) +
     $          BETA(3)*C(1,I,J) + BETA(4)*C(2,I,J)

              C(4,I,J) = ALPHA*C(4,I,J) + 
     $          BETA(1)*C(4,I,J) + BETA(2)*C(3,I,J) -
     $          BETA(3)*C(2,I,J) + BETA(4)*C(1,I,J)
           
              C(3,I,J) = HTMPJ
              C(2,I,J) = HTMPI
              C(1,I,J) = HTMPS
#else
              HTMPS    = ALPHA*HTMPS + 
     $          BETA(1)*C(1,I,J) - BETA(2)*CONJG(C(2,I,J))
              C(2,I,J) = ALPHA*HTMPJ + 
     $          BETA(1)*C(2,I,J) + BETA(2)*CONJG(C(1,I,J))
              C(1,I,J) = HTMPS
#endif
            ENDIF
  280     CONTINUE
        ENDIF
      ENDIF
      END
".
(** src/hblas/fortran/hblas3/hgemmdz.f, all 734 lines *)
Definition src_hgemmdz : string := "C 
C     This file is a part of HAXX
C     
C     Copyright (c) 2017 David Williams-Young
C     All rights reserved.
C     
C     See LICENSE.txt 
C
#define HBLAS_USE_COMPLEX
      Subroutine HGEMMDZ(TRANSA, TRANSB, M, N, K, ALPHA, A, LDA,
     $  B, LDB, BETA, C, LDC)
C
      LOGICAL LSAME
      EXTERNAL LSAME
C
      CHARACTER TRANSA, TRANSB
      LOGICAL   NOTA, NOTB, CONJA, CONJB, AZERO, AONE,
     $          BZERO, BONE
      INTEGER*4 M,N,K, LDA,LDB,LDC, I,J,L
      REAL*8    ALPHA
#ifndef HBLAS_USE_COMPLEX
      REAL*8    A(4,LDA,*), B(4,LDB,*), C(4,LDC,*), BETA(2)
C
      REAL*8    HTMPS, HTMPI, HTMPJ, HTMPK
C
      REAL*8    ONE, ZERO
      PARAMETER (ONE=1.0D+0, ZERO=0.0D+0)
#else
      Complex*16    A(2,LDA,*), B(2,LDB,*), C(2,LDC,*), BETA
C
      COMPLEX*16    HTMPS, HTMPJ
C
      COMPLEX*16    ONE, ZERO
      PARAMETER (ONE=(1.0D+0,0.0D+0), ZERO=(0.0D+0,0.0D+0))
#endif
C
      NOTA  = LSAME(TRANSA,'N')
      NOTB  = LSAME(TRANSB,'N')
      CONJA = LSAME(TRANSA,'C')
      CONJB = LSAME(TRANSB,'C')

      AZERO = ALPHA.EQ.ZERO
      AONE  = ALPHA.EQ.ONE
#ifndef HBLAS_USE_COMPLEX
      BZERO = (BETA(1).EQ.ZERO).AND.(BETA(2).EQ.ZERO)
      BONE = (BETA(1).EQ.ONE).AND.(BETA(2).EQ.ZERO)
#else
      BZERO = BETA.EQ.ZERO
      BONE  = BETA.EQ.ONE
#endif

C
C     Quick Return
C
      If ( (M.EQ.0) .OR. (N.EQ.0) ) RETURN
      If ( (AZERO .OR. (K.EQ.0)) .AND. BONE ) RETURN

C
C     ALPHA.EQ.ZERO
C
      IF ( AZERO ) THEN
        IF ( BZERO ) THEN
          DO 10 J = 1,N
          DO 10 I = 1,M
            C(1,I,J) = ZERO
            C(2,I,J) = ZERO
#ifndef HBLAS_USE_COMPLEX
            C(3,I,J) = ZERO
            C(4,I,J) = ZERO
#endif
  10      CONTINUE
        ELSE
          DO 20 J = 1,N
          DO 20 I = 1,M
#ifndef HBLAS_USE_COMPLEX
            HTMPS = HTMPS + 
     $        BETA(1)*C(1,I,J) - BETA(2)*C(2,I,J) 

            HTMPI = HTMPI + 
     $        BETA(1)*C(2,I,J) + BETA(2)*C(1,I,J)

            HTMPJ = HTMPJ + 
     $        BETA(1)*C(3,I,J) - BETA(2)*C(4,I,J)

            C(4,I,J) = C(4,I,J) + 
     $        BETA(1)*C(4,I,J) + BETA(2)*C(3,I,J)
           
            C(3,I,J) = HTMPJ
            C(2,I,J) = HTMPI
            C(1,I,J) = HTMPS
#else
            C(1,I,J) = BETA * C(1,I,J) 
            C(2,I,J) = BETA * C(2,I,J) 
#endif
  20      CONTINUE
        ENDIF
        RETURN ! Nothing more to do
      ENDIF
C
      IF ( NOTB ) THEN
        IF ( NOTA ) THEN
C
C       C_{IJ} = ALPHA * A_{IK} * B_{KJ} + BETA * C_{IJ}
C
          DO 30 J = 1,N
            IF ( BZERO ) THEN
              DO 40 I = 1,M
                C(1,I,J) = ZERO
                C(2,I,J) = ZERO
#ifndef HBLAS_USE_COMPLEX
                C(3,I,J) = ZERO
                C(4,I,J) = ZERO
#endif
  40          CONTINUE
            ELSEIF ( .NOT. BONE ) THEN
              DO 50 I = 1,M
#ifndef HBLAS_USE_COMPLEX
                HTMPS = HTMPS + 
     $            BETA(1)*C(1,I,J) - BETA(2)*C(2,I,J)  

                HTMPI = HTMPI + 
     $            BETA(1)*C(2,I,J) + BETA(2)*C(1,I,J) 

                HTMPJ = HTMPJ + 
     $            BETA(1)*C(3,I,J) - BETA(2)*C(4,I,J) 

                C(4,I,J) = C(4,I,J) + 
     $            BETA(1)*C(4,I,J) + BETA(2)*C(3,I,J) 
           
                C(3,I,J) = HTMPJ
                C(2,I,J) = HTMPI
                C(1,I,J) = HTMPS
#else
                C(1,I,J) = BETA * C(1,I,J) 
                C(2,I,J) = BETA * C(2,I,J) 
#endif
  50          CONTINUE
            ENDIF
C
            DO 60 L = 1,K
              HTMPS = ALPHA * B(1,L,J)
#ifndef HBLAS_USE_COMPLEX
              HTMPI = ALPHA * B(2,L,J)
              HTMPJ = ALPHA * B(3,L,J)
              HTMPK = ALPHA * B(4,L,J)
#else
              HTMPJ = ALPHA * B(2,L,J)
#endif
              DO 70 I = 1,M
C               Hamilton Product
#ifndef HBLAS_USE_COMPLEX
                C(1,I,J) = C(1,I,J) + 
     $            A(1,I,L)*HTMPS - A(2,I,L)*HTMPI - 
     $            A(3,I,L)*HTMPJ - A(4,I,L)*HTMPK

                C(2,I,J) = C(2,I,J) + 
     $            A(1,I,L)*HTMPI + A(2,I,L)*HTMPS +
     $            A(3,I,L)*HTMPK - A(4,I,L)*HTMPJ

                C(3,I,J) = C(3,I,J) + 
     $            A(1,I,L)*HTMPJ - A(2,I,L)*HTMPK +
     $            A(3,I,L)*HTMPS + A(4,I,L)*HTMPI

                C(4,I,J) = C(4,I,J) + 
     $            A(1,I,L)*HTMPK + A(2,I,L)*HTMPJ -
     $            A(3,I,L)*HTMPI + A(4,I,L)*HTMPS
#else
                C(1,I,J) = C(1,I,J) + 
     $            A(1,I,L)*HTMPS - A(2,I,L)*CONJG(HTMPJ)
                C(2,I,J) = C(2,I,J) + 
     $            A(1,I,L)*HTMPJ + A(2,I,L)*CONJG(HTMPS)
#endif
  70          CONTINUE
  60        CONTINUE
  30      CONTINUE
        ELSE IF ( CONJA ) THEN
C
C         C_{IJ} = ALPHA * CONJ(A_{KI}) * B_{KJ} + BETA * C_{IJ}
C
          DO 80 J = 1,N
          DO 80 I = 1,M
            HTMPS = ZERO 
            HTMPJ = ZERO 
#ifndef HBLAS_USE_COMPLEX
            HTMPI = ZERO 
            HTMPK = ZERO 
#endif
            DO 90 L = 1,K
C             Hamilton Product (IMPLIED CONJ(A))
#ifndef HBLAS_USE_COMPLEX
              HTMPS = HTMPS + A(1,L,I)*B(1,L,J) + A(2,L,I)*B(2,L,J) +
     $                        A(3,L,I)*B(3,L,J) + A(4,L,I)*B(4,L,J)

              HTMPI = HTMPI + A(1,L,I)*B(2,L,J) - A(2,L,I)*B(1,L,J) -
     $                        A(3,L,I)*B(4,L,J) + A(4,L,I)*B(3,L,J)

              HTMPJ = HTMPJ + A(1,L,I)*B(3,L,J) + A(2,L,I)*B(4,L,J) -
     $                        A(3,L,I)*B(1,L,J) - A(4,L,I)*B(2,L,J)

              HTMPK = HTMPK + A(1,L,I)*B(4,L,J) - A(2,L,I)*B(3,L,J) +
     $                        A(3,L,I)*B(2,L,J) - A(4,L,I)*B(1,L,J)
#else
              HTMPS = HTMPS + 
     $          CONJG(A(1,L,I))*B(1,L,J) + A(2,L,I)*CONJG(B(2,L,J))
              HTMPJ = HTMPJ + 
     $          CONJG(A(1,L,I))*B(2,L,J) - A(2,L,I)*CONJG(B(1,L,J))
#endif
  90        CONTINUE
C
            IF( BZERO ) THEN
              C(1,I,J) = ALPHA * HTMPS
#ifndef HBLAS_USE_COMPLEX
              C(2,I,J) = ALPHA * HTMPI
              C(3,I,J) = ALPHA * HTMPJ
              C(4,I,J) = ALPHA * HTMPK
#else
              C(2,I,J) = ALPHA * HTMPJ
#endif
            ELSE
#ifndef HBLAS_USE_COMPLEX
              HTMPS = ALPHA*HTMPS + 
     $          BETA(1)*C(1,I,J) - BETA(2)*C(2,I,J)  

              HTMPI = ALPHA*HTMPI + 
     $          BETA(1)*C(2,I,J) + BETA(2)*C(1,I,J) 

              HTMPJ = ALPHA*HTMPJ + 
     $          BETA(1)*C(3,I,J) - BETA(2)*C(4,I,J) 

              C(4,I,J) = ALPHA*C(4,I,J) + 
     $          BETA(1)*C(4,I,J) + BETA(2)*C(3,I,J) 
           
              C(3,I,J) = HTMPJ
              C(2,I,J) = HTMPI
              C(1,I,J) = HTMPS
#else
              C(1,I,J) = ALPHA * HTMPS + BETA * C(1,I,J)
              C(2,I,J) = ALPHA * HTMPJ + BETA * C(2,I,J)
#endif
            ENDIF
  80      CONTINUE
        ELSE
C         IMPLIES TRANSA == 'T'
C
C         C_{IJ} = ALPHA * A_{KI} * B_{KJ} + BETA * C_{IJ}
C
          DO 100 J = 1,N
          DO 100 I = 1,M
            HTMPS = ZERO 
            HTMPJ = ZERO 
#ifndef HBLAS_USE_COMPLEX
            HTMPI = ZERO 
            HTMPK = ZERO 
#endif
            DO 110 L = 1,K
C             Hamilton Product
#ifndef HBLAS_USE_COMPLEX
              HTMPS = HTMPS + A(1,L,I)*B(1,L,J) - A(2,L,I)*B(2,L,J) -
     $                        A(3,L,I)*B(3,L,J) - A(4,L,I)*B(4,L,J)

              HTMPI = HTMPI + A(1,L,I)*B(2,L,J) + A(2,L,I)*B(1,L,J) +
     $                        A(3,L,I)*B(4,L,J) - A(4,L,I)*B(3,L,J)

              HTMPJ = HTMPJ + A(1,L,I)*B(3,L,J) - A(2,L,I)*B(4,L,J) +
     $                        A(3,L,I)*B(1,L,J) + A(4,L,I)*B(2,L,J)

              HTMPK = HTMPK + A(1,L,I)*B(4,L,J) + A(2,L,I)*B(3,L,J) -
     $                        A(3,L,I)*B(2,L,J) + A(4,L,I)*B(1,L,J)
#else
              HTMPS = HTMPS + 
     $          A(1,L,I)*B(1,L,J) - A(2,L,I)*CONJG(B(2,L,J))
              HTMPJ = HTMPJ + 
     $          A(1,L,I)*B(2,L,J) + A(2,L,I)*CONJG(B(1,L,J))
#endif
  110       CONTINUE

            IF( BZERO ) THEN
              C(1,I,J) = ALPHA * HTMPS
#ifndef HBLAS_USE_COMPLEX
              C(2,I,J) = ALPHA * HTMPI
              C(3,I,J) = ALPHA * HTMPJ
              C(4,I,J) = ALPHA * HTMPK
#else
              C(2,I,J) = ALPHA * HTMPJ
#endif
            ELSE
#ifndef HBLAS_USE_COMPLEX
              HTMPS = ALPHA*HTMPS + 
     $          BETA(1)*C(1,I,J) - BETA(2)*C(2,I,J)  

              HTMPI = ALPHA*HTMPI + 
     $          BETA(1)*C(2,I,J) + BETA(2)*C(1,I,J) 

              HTMPJ = ALPHA*HTMPJ + 
     $          BETA(1)*C(3,I,J) - BETA(2)*C(4,I,J) 

              C(4,I,J) = ALPHA*C(4,I,J) + 
     $          BETA(1)*C(4,I,J) + BETA(2)*C(3,I,J) 
           
              C(3,I,J) = HTMPJ
              C(2,I,J) = HTMPI
              C(1,I,J) = HTMPS
#else
              C(1,I,J) = ALPHA * HTMPS + BETA * C(1,I,J)
              C(2,I,J) = ALPHA * HTMPJ + BETA * C(2,I,J)
#endif
            ENDIF
  100     CONTINUE
        ENDIF
      ELSE IF ( NOTA ) THEN
        IF ( CONJB ) THEN
C
C         C_{IJ} = ALPHA * A_{IK} * CONJ(B_{JK}) + BETA * C_{IJ}
C
          DO 120 J = 1,N
            IF ( BZERO ) THEN
              DO 130 I = 1,M
                C(1,I,J) = ZERO
                C(2,I,J) = ZERO
#ifndef HBLAS_USE_COMPLEX
                C(3,I,J) = ZERO
                C(4,I,J) = ZERO
#endif
  130         CONTINUE
            ELSEIF ( .NOT. BONE ) THEN
              DO 140 I = 1,M
#ifndef HBLAS_USE_COMPLEX
                HTMPS = HTMPS + 
     $            BETA(1)*C(1,I,J) - BETA(2)*C(2,I,J)  

                HTMPI = HTMPI + 
     $            BETA(1)*C(2,I,J) + BETA(2)*C(1,I,J) 

                HTMPJ = HTMPJ + 
     $            BETA(1)*C(3,I,J) - BETA(2)*C(4,I,J) 

                C(4,I,J) = C(4,I,J) + 
     $            BETA(1)*C(4,I,J) + BETA(2)*C(3,I,J) 
           
                C(3,I,J) = HTMPJ
                C(2,I,J) = HTMPI
                C(1,I,J) = HTMPS
#else
                C(1,I,J) = BETA * C(1,I,J) 
                C(2,I,J) = BETA * C(2,I,J) 
#endif
  140         CONTINUE
            ENDIF
C
            DO 150 L = 1,K
#ifndef HBLAS_USE_COMPLEX
              HTMPS =  ALPHA * B(1,J,L)
              HTMPI = -ALPHA * B(2,J,L)
              HTMPJ = -ALPHA * B(3,J,L)
              HTMPK = -ALPHA * B(4,J,L)
#else
              HTMPS =  ALPHA * CONJG(B(1,J,L))
              HTMPJ = -ALPHA * B(2,J,L)
#endif
              DO 160 I = 1,M
C               Hamilton Product
#ifndef HBLAS_USE_COMPLEX
                C(1,I,J) = C(1,I,J) + 
     $            A(1,I,L)*HTMPS - A(2,I,L)*HTMPI -
     $            A(3,I,L)*HTMPJ - A(4,I,L)*HTMPK

                C(2,I,J) = C(2,I,J) + 
     $            A(1,I,L)*HTMPI + A(2,I,L)*HTMPS +
     $            A(3,I,L)*HTMPK - A(4,I,L)*HTMPJ

                C(3,I,J) = C(3,I,J) + 
     $            A(1,I,L)*HTMPJ - A(2,I,L)*HTMPK +
     $            A(3,I,L)*HTMPS + A(4,I,L)*HTMPI

                C(4,I,J) = C(4,I,J) + 
     $            A(1,I,L)*HTMPK + A(2,I,L)*HTMPJ -
     $            A(3,I,L)*HTMPI + A(4,I,L)*HTMPS
#else
                C(1,I,J) = C(1,I,J) + 
     $            A(1,I,L)*HTMPS - A(2,I,L)*CONJG(HTMPJ)
                C(2,I,J) = C(2,I,J) + 
     $            A(1,I,L)*HTMPJ + A(2,I,L)*CONJG(HTMPS)
#endif
  160         CONTINUE
  150       CONTINUE
  120     CONTINUE
        ELSE
C         Implies TRANSB == 'T'
C
C         C_{IJ} = ALPHA * A_{IK} * B_{JK} + BETA * C_{IJ}
C
          DO 170 J = 1,N
            IF ( BZERO ) THEN
              DO 180 I = 1,M
                C(1,I,J) = ZERO
                C(2,I,J) = ZERO
#ifndef HBLAS_USE_COMPLEX
                C(3,I,J) = ZERO
                C(4,I,J) = ZERO
#endif
  180         CONTINUE
            ELSEIF ( .NOT. BONE ) THEN
              DO 190 I = 1,M
#ifndef HBLAS_USE_COMPLEX
                HTMPS = HTMPS + 
     $            BETA(1)*C(1,I,J) - BETA(2)*C(2,I,J)  

                HTMPI = HTMPI + 
     $            BETA(1)*C(2,I,J) + BETA(2)*C(1,I,J) 

                HTMPJ = HTMPJ + 
     $            BETA(1)*C(3,I,J) - BETA(2)*C(4,I,J) 

                C(4,I,J) = C(4,I,J) + 
     $            BETA(1)*C(4,I,J) + BETA(2)*C(3,I,J) 
           
                C(3,I,J) = HTMPJ
                C(2,I,J) = HTMPI
                C(1,I,J) = HTMPS
#else
                C(1,I,J) = BETA * C(1,I,J) 
                C(2,I,J) = BETA * C(2,I,J) 
#endif
  190         CONTINUE
            ENDIF
C
            DO 200 L = 1,K
              HTMPS = ALPHA * B(1,J,L)
#ifndef HBLAS_USE_COMPLEX
              HTMPI = ALPHA * B(2,J,L)
              HTMPJ = ALPHA * B(3,J,L)
              HTMPK = ALPHA * B(4,J,L)
#else
              HTMPJ = ALPHA * B(2,J,L)
#endif
              DO 210 I = 1,M
C               Hamilton Product
#ifndef HBLAS_USE_COMPLEX
                C(1,I,J) = C(1,I,J) + 
     $            A(1,I,L)*HTMPS - A(2,I,L)*HTMPI -
     $            A(3,I,L)*HTMPJ - A(4,I,L)*HTMPK

                C(2,I,J) = C(2,I,J) + 
     $            A(1,I,L)*HTMPI + A(2,I,L)*HTMPS +
     $            A(3,I,L)*HTMPK - A(4,I,L)*HTMPJ

                C(3,I,J) = C(3,I,J) + 
     $            A(1,I,L)*HTMPJ - A(2,I,L)*HTMPK +
     $            A(3,I,L)*HTMPS + A(4,I,L)*HTMPI

                C(4,I,J) = C(4,I,J) + 
     $            A(1,I,L)*HTMPK + A(2,I,L)*HTMPJ -
     $            A(3,I,L)*HTMPI + A(4,I,L)*HTMPS
#else
                C(1,I,J) = C(1,I,J) + 
     $            A(1,I,L)*HTMPS - A(2,I,L)*CONJG(HTMPJ)
                C(2,I,J) = C(2,I,J) + 
     $            A(1,I,L)*HTMPJ + A(2,I,L)*CONJG(HTMPS)
#endif
  210         CONTINUE
  200       CONTINUE
  170     CONTINUE
        ENDIF
      ELSE IF ( CONJA ) THEN
        IF ( CONJB ) THEN
C
C         C_{IJ} = ALPHA * CONJ(A_{KI}) * CONJ(B_{JK}) + BETA * C_{IJ}
C
          DO 220 J = 1,N
          DO 220 I = 1,M
            HTMPS = ZERO 
            HTMPJ = ZERO 
#ifndef HBLAS_USE_COMPLEX
            HTMPI = ZERO 
            HTMPK = ZERO 
#endif
            DO 230 L = 1,K
C             Hamilton Product (IMPLIED CONJ(A) + CONJ(B))
#ifndef HBLAS_USE_COMPLEX
              HTMPS = HTMPS + A(1,L,I)*B(1,J,L) - A(2,L,I)*B(2,J,L) -
     $                        A(3,L,I)*B(3,J,L) - A(4,L,I)*B(4,J,L)

              HTMPI = HTMPI - A(1,L,I)*B(2,J,L) - A(2,L,I)*B(1,J,L) +
     $                        A(3,L,I)*B(4,J,L) - A(4,L,I)*B(3,J,L)

              HTMPJ = HTMPJ - A(1,L,I)*B(3,J,L) - A(2,L,I)*B(4,J,L) -
     $                        A(3,L,I)*B(1,J,L) + A(4,L,I)*B(2,J,L)

              HTMPK = HTMPK - A(1,L,I)*B(4,J,L) + A(2,L,I)*B(3,J,L) -
     $                        A(3,L,I)*B(2,J,L) - A(4,L,I)*B(1,J,L)
#else
              HTMPS = HTMPS + 
     $          CONJG(A(1,L,I))*CONJG(B(1,J,L)) - 
     $          A(2,L,I)*CONJG(B(2,J,L))
              HTMPJ = HTMPJ - 
     $          CONJG(A(1,L,I))*B(2,J,L) - A(2,L,I)*B(1,J,L)
#endif
  230       CONTINUE
C
            IF( BZERO ) THEN
              C(1,I,J) = ALPHA * HTMPS
#ifndef HBLAS_USE_COMPLEX
              C(2,I,J) = ALPHA * HTMPI
              C(3,I,J) = ALPHA * HTMPJ
              C(4,I,J) = ALPHA * HTMPK
#else
              C(2,I,J) = ALPHA * HTMPJ
#endif
            ELSE
#ifndef HBLAS_USE_COMPLEX
              HTMPS = ALPHA*HTMPS + 
     $          BETA(1)*C(1,I,J) - BETA(2)*C(2,I,J)  

              HTMPI = ALPHA*HTMPI + 
     $          BETA(1)*C(2,I,J) + BETA(2)*C(1,I,J) 

              HTMPJ = ALPHA*HTMPJ + 
     $          BETA(1)*C(3,I,J) - BETA(2)*C(4,I,J) 

              C(4,I,J) = ALPHA*C(4,I,J) + 
     $          BETA(1)*C(4,I,J) + BETA(2)*C(3,I,J) 
           
              C(3,I,J) = HTMPJ
              C(2,I,J) = HTMPI
              C(1,I,J) = HTMPS
#else
              C(1,I,J) = ALPHA * HTMPS + BETA * C(1,I,J)
              C(2,I,J) = ALPHA * HTMPJ + BETA * C(2,I,J)
#endif
            ENDIF
  220     CONTINUE
        ELSE
C         Implies TRANSB == 'T'
C
C         C_{IJ} = ALPHA * CONJ(A_{KI}) * B_{JK} + BETA * C_{IJ}
C
          DO 240 J = 1,N
          DO 240 I = 1,M
            HTMPS = ZERO 
            HTMPJ = ZERO 
#ifndef HBLAS_USE_COMPLEX
            HTMPI = ZERO 
            HTMPK = ZERO 
#endif
            DO 250 L = 1,K
C             Hamilton Product (IMPLIED CONJ(A))
#ifndef HBLAS_USE_COMPLEX
              HTMPS = HTMPS + A(1,L,I)*B(1,J,L) + A(2,L,I)*B(2,J,L) +
     $                        A(3,L,I)*B(3,J,L) + A(4,L,I)*B(4,J,L)
                                               
              HTMPI = HTMPI + A(1,L,I)*B(2,J,L) - A(2,L,I)*B(1,J,L) -
     $                        A(3,L,I)*B(4,J,L) + A(4,L,I)*B(3,J,L)
                                               
              HTMPJ = HTMPJ + A(1,L,I)*B(3,J,L) + A(2,L,I)*B(4,J,L) -
     $                        A(3,L,I)*B(1,J,L) - A(4,L,I)*B(2,J,L)
                                               
              HTMPK = HTMPK + A(1,L,I)*B(4,J,L) - A(2,L,I)*B(3,J,L) +
     $                        A(3,L,I)*B(2,J,L) - A(4,L,I)*B(1,J,L)
#else
              HTMPS = HTMPS + 
     $          CONJG(A(1,L,I))*B(1,J,L) + A(2,L,I)*CONJG(B(2,J,L))
              HTMPJ = HTMPJ + 
     $          CONJG(A(1,L,I))*B(2,J,L) - A(2,L,I)*CONJG(B(1,J,L))
#endif
  250       CONTINUE
C
            IF( BZERO ) THEN
              C(1,I,J) = ALPHA * HTMPS
#ifndef HBLAS_USE_COMPLEX
              C(2,I,J) = ALPHA * HTMPI
              C(3,I,J) = ALPHA * HTMPJ
              C(4,I,J) = ALPHA * HTMPK
#else
              C(2,I,J) = ALPHA * HTMPJ
#endif
            ELSE
#ifndef HBLAS_USE_COMPLEX
              HTMPS = ALPHA*HTMPS + 
     $          BETA(1)*C(1,I,J) - BETA(2)*C(2,I,J)  

              HTMPI = ALPHA*HTMPI + 
     $          BETA(1)*C(2,I,J) + BETA(2)*C(1,I,J) 

              HTMPJ = ALPHA*HTMPJ + 
     $          BETA(1)*C(3,I,J) - BETA(2)*C(4,I,J) 

              C(4,I,J) = ALPHA*C(4,I,J) + 
     $          BETA(1)*C(4,I,J) + BETA(2)*C(3,I,J) 
           
              C(3,I,J) = HTMPJ
              C(2,I,J) = HTMPI
              C(1,I,J) = HTMPS
#else
              C(1,I,J) = ALPHA * HTMPS + BETA * C(1,I,J)
              C(2,I,J) = ALPHA * HTMPJ + BETA * C(2,I,J)
#endif
            ENDIF
  240     CONTINUE
        ENDIF
      ELSE
C       Implies TRANSA == 'T'
        IF ( CONJB ) THEN
C
C         C_{IJ} = ALPHA * A_{KI} * CONJ(B_{JK}) + BETA * C_{IJ}
C
          DO 260 J = 1,N
          DO 260 I = 1,M
            HTMPS = ZERO 
            HTMPI = ZERO 
            HTMPJ = ZERO 
            HTMPK = ZERO 
            DO 270 L = 1,K
C             Hamilton Product (IMPLIED CONJ(B))
#ifndef HBLAS_USE_COMPLEX
              HTMPS = HTMPS + A(1,L,I)*B(1,J,L) + A(2,L,I)*B(2,J,L) +
     $                        A(3,L,I)*B(3,J,L) + A(4,L,I)*B(4,J,L)

              HTMPI = HTMPI - A(1,L,I)*B(2,J,L) + A(2,L,I)*B(1,J,L) -
     $                        A(3,L,I)*B(4,J,L) + A(4,L,I)*B(3,J,L)

              HTMPJ = HTMPJ - A(1,L,I)*B(3,J,L) + A(2,L,I)*B(4,J,L) +
     $                        A(3,L,I)*B(1,J,L) - A(4,L,I)*B(2,J,L)

              HTMPK = HTMPK - A(1,L,I)*B(4,J,L) - A(2,L,I)*B(3,J,L) +
     $                        A(3,L,I)*B(2,J,L) + A(4,L,I)*B(1,J,L)
#else
              HTMPS = HTMPS + 
     $          A(1,L,I)*CONJG(B(1,J,L)) + A(2,L,I)*CONJG(B(2,J,L))
              HTMPJ = HTMPJ - 
     $          A(1,L,I)*B(2,J,L) + A(2,L,I)*B(1,J,L)
#endif
  270       CONTINUE

            IF( BZERO ) THEN
              C(1,I,J) = ALPHA * HTMPS
#ifndef HBLAS_USE_COMPLEX
              C(2,I,J) = ALPHA * HTMPI
              C(3,I,J) = ALPHA * HTMPJ
              C(4,I,J) = ALPHA * HTMPK
#else
              C(2,I,J) = ALPHA * HTMPJ
#endif
            ELSE
#ifndef HBLAS_USE_COMPLEX
              HTMPS = ALPHA*HTMPS + 
     $          BETA(1)*C(1,I,J) - BETA(2)*C(2,I,J)  

              HTMPI = ALPHA*HTMPI + 
     $          BETA(1)*C(2,I,J) + BETA(2)*C(1,I,J) 

              HTMPJ = ALPHA*HTMPJ + 
     $          BETA(1)*C(3,I,J) - BETA(2)*C(4,I,J) 

              C(4,I,J) = ALPHA*C(4,I,J) + 
     $          BETA(1)*C(4,I,J) + BETA(2)*C(3,I,J) 
           
              C(3,I,J) = HTMPJ
              C(2,I,J) = HTMPI
              C(1,I,J) = HTMPS
#else
              C(1,I,J) = ALPHA * HTMPS + BETA * C(1,I,J)
              C(2,I,J) = ALPHA * HTMPJ + BETA * C(2,I,J)
#endif
            ENDIF
  260     CONTINUE
        ELSE
C
C         C_{IJ} = ALPHA * A_{KI} * B_{JK} + BETA * C_{IJ}
C
          DO 280 J = 1,N
          DO 280 I = 1,M
            HTMPS = ZERO 
            HTMPJ = ZERO 
#ifndef HBLAS_USE_COMPLEX
            HTMPI = ZERO 
            HTMPK = ZERO 
#endif
            DO 290 L = 1,K
C             Hamilton Product
#ifndef HBLAS_USE_COMPLEX
              HTMPS = HTMPS + A(1,L,I)*B(1,J,L) - A(2,L,I)*B(2,J,L) -
     $                        A(3,L,I)*B(3,J,L) - A(4,L,I)*B(4,J,L)

              HTMPI = HTMPI + A(1,L,I)*B(2,J,L) + A(2,L,I)*B(1,J,L) +
     $                        A(3,L,I)*B(4,J,L) - A(4,L,I)*B(3,J,L)

              HTMPJ = HTMPJ + A(1,L,I)*B(3,J,L) - A(2,L,I)*B(4,J,L) +
     $                        A(3,L,I)*B(1,J,L) + A(4,L,I)*B(2,J,L)

              HTMPK = HTMPK + A(1,L,I)*B(4,J,L) + A(2,L,I)*B(3,J,L) -
     $                        A(3,L,I)*B(2,J,L) + A(4,L,I)*B(1,J,L)
#else
              HTMPS = HTMPS + 
     $          A(1,L,I)*B(1,J,L) - A(2,L,I)*CONJG(B(2,J,L))
              HTMPJ = HTMPJ + 
     $          A(1,L,I)*B(2,J,L) + A(2,L,I)*CONJG(B(1,J,L))
#endif
  290       CONTINUE

            IF( BZERO ) THEN
              C(1,I,J) = ALPHA * HTMPS
#ifndef HBLAS_USE_COMPLEX
              C(2,I,J) = ALPHA * HTMPI
              C(3,I,J) = ALPHA * HTMPJ
              C(4,I,J) = ALPHA * HTMPK
#else
              C(2,I,J) = ALPHA * HTMPJ
#endif
            ELSE
#ifndef HBLAS_USE_COMPLEX
              HTMPS = ALPHA*HTMPS + 
     $          BETA(1)*C(1,I,J) - BETA(2)*C(2,I,J)  

              HTMPI = ALPHA*HTMPI + 
     $          BETA(1)*C(2,I,J) + BETA(2)*C(1,I,J) 

              HTMPJ = ALPHA*HTMPJ + 
     $          BETA(1)*C(3,I,J) - BETA(2)*C(4,I,J) 

              C(4,I,J) = ALPHA*C(4,I,J) + 
     $          BETA(1)*C(4,I,J) + BETA(2)*C(3,I,J) 
           
              C(3,I,J) = HTMPJ
              C(2,I,J) = HTMPI
              C(1,I,J) = HTMPS
#else
              C(1,I,J) = ALPHA * HTMPS + BETA * C(1,I,J)
              C(2,I,J) = ALPHA * HTMPJ + BETA * C(2,I,J)
#endif
            ENDIF
  280     CONTINUE
        ENDIF
      ENDIF
      END
".
(** src/hblas/fortran/hblas3/hgemmhd.f, all 346 lines *)
Definition src_hgemmhd : string := "C 
C     This file is a part of HAXX
C     
C     Copyright (c) 2017 David Williams-Young
C     All rights reserved.
C     
C     See LICENSE.txt 
C
      Subroutine HGEMMHD(TRANSA, TRANSB, M, N, K, ALPHA, A, LDA,
     $  B, LDB, BETA, C, LDC)
C
      LOGICAL LSAME
      EXTERNAL LSAME
C
      CHARACTER TRANSA, TRANSB
      LOGICAL   NOTA, NOTB, CONJA, CONJB, AZERO, AONE,
     $          BZERO, BONE
      INTEGER*4 M,N,K, LDA,LDB,LDC, I,J,L
      REAL*8    BETA
      Complex*16    A(2,LDA,*), B(2,LDB,*), C(2,LDC,*), ALPHA(2)
C
      COMPLEX*16    HTMP1S, HTMP1J, HTMP2S, HTMP2J
      COMPLEX*16    HTMP3S, HTMP3J, HTMP4S, HTMP4J
C
      COMPLEX*16    ONE, ZERO
      PARAMETER (ONE=(1.0D+0,0.0D+0), ZERO=(0.0D+0,0.0D+0))
C

      NOTA  = LSAME(TRANSA,'N')
      NOTB  = LSAME(TRANSB,'N')
      CONJA = LSAME(TRANSA,'C')
      CONJB = LSAME(TRANSB,'C')

      AZERO = (ALPHA(1).EQ.ZERO).AND.((ALPHA(2).EQ.ZERO))
      AONE  = (ALPHA(1).EQ.ONE).AND.((ALPHA(2).EQ.ZERO))
      BZERO = BETA.EQ.ZERO
      BONE  = BETA.EQ.ONE

C
C     Quick Return
C
      If ( (M.EQ.0) .OR. (N.EQ.0) ) RETURN
      If ( (AZERO .OR. (K.EQ.0)) .AND. BONE ) RETURN

C
C     ALPHA.EQ.ZERO
C
      IF ( AZERO ) THEN
        IF ( BZERO ) THEN
          DO 10 J = 1,N
          DO 10 I = 1,M
            C(1,I,J) = ZERO
            C(2,I,J) = ZERO
  10      CONTINUE
        ELSE
          DO 20 J = 1,N
          DO 20 I = 1,M
            C(1,I,J) = BETA * C(1,I,J) 
            C(2,I,J) = BETA * C(2,I,J) 
  20      CONTINUE
        ENDIF
        RETURN ! Nothing more to do
      ENDIF
C
      IF ( NOTB ) THEN
        IF ( NOTA ) THEN
C
C       C_{IJ} = ALPHA * A_{IK} * B_{KJ} + BETA * C_{IJ}
C
          DO 30 J = 1,N
            IF ( BZERO ) THEN
              DO 40 I = 1,M
                C(1,I,J) = ZERO
                C(2,I,J) = ZERO
  40          CONTINUE
            ELSEIF ( .NOT. BONE ) THEN
              DO 50 I = 1,M
                C(1,I,J) = BETA * C(1,I,J) 
                C(2,I,J) = BETA * C(2,I,J) 
  50          CONTINUE
            ENDIF
C
            DO 60 L = 1,K
              HTMP1S = ALPHA(1) * B(1,L,J) ! AE
              HTMP1J = ALPHA(1) * B(2,L,J) ! AF
              HTMP2S = ALPHA(1) * CONJG(B(1,L,J)) ! A CONJ(E)
              HTMP2J = ALPHA(1) * CONJG(B(2,L,J)) ! A CONJ(F)
              HTMP3S = ALPHA(2) * B(1,L,J) ! BE
              HTMP3J = ALPHA(2) * B(2,L,J) ! BF
              HTMP4S = ALPHA(2) * CONJG(B(1,L,J)) ! B CONJ(E)
              HTMP4J = ALPHA(2) * CONJG(B(2,L,J)) ! B CONJ(F)
              DO 70 I = 1,M
C               Hamilton Product
                C(1,I,J) = C(1,I,J) + 
     $            A(1,I,L)*HTMP1S - A(2,I,L)*HTMP2J - 
     $            CONJG(A(1,I,L))*HTMP4J - CONJG(A(2,I,L))*HTMP3S 
                C(2,I,J) = C(2,I,J) + 
     $            A(1,I,L)*HTMP1J + A(2,I,L)*HTMP2S +
     $            CONJG(A(1,I,L))*HTMP4S - CONJG(A(2,I,L))*HTMP3J
  70          CONTINUE
  60        CONTINUE
  30      CONTINUE
        ELSE IF ( CONJA ) THEN
C
C         C_{IJ} = ALPHA * CONJ(A_{KI}) * B_{KJ} + BETA * C_{IJ}
C
          DO 80 J = 1,N
          DO 80 I = 1,M
            HTMP1S = ZERO 
            HTMP1J = ZERO 
            DO 90 L = 1,K
C             Hamilton Product (IMPLIED CONJ(A))
              HTMP1S = HTMP1S + 
     $          CONJG(A(1,L,I))*B(1,L,J) + A(2,L,I)*CONJG(B(2,L,J))
              HTMP1J = HTMP1J + 
     $          CONJG(A(1,L,I))*B(2,L,J) - A(2,L,I)*CONJG(B(1,L,J))
  90        CONTINUE
C
            IF( BZERO ) THEN
              C(1,I,J) = ALPHA(1)*HTMP1S - ALPHA(2)*CONJG(HTMP1J)
              C(2,I,J) = ALPHA(1)*HTMP1J + ALPHA(2)*CONJG(HTMP1S)
            ELSE
              C(1,I,J) = ALPHA(1)*HTMP1S - ALPHA(2)*CONJG(HTMP1J) + 
     $          BETA * C(1,I,J)
              C(2,I,J) = ALPHA(1)*HTMP1J + ALPHA(2)*CONJG(HTMP1S) + 
     $          BETA * C(2,I,J)
            ENDIF
  80      CONTINUE
        ELSE
C         IMPLIES TRANSA == 'T'
C
C         C_{IJ} = ALPHA * A_{KI} * B_{KJ} + BETA * C_{IJ}
C
          DO 100 J = 1,N
          DO 100 I = 1,M
            HTMP1S = ZERO 
            HTMP1J = ZERO 
            DO 110 L = 1,K
C             Hamilton Product
              HTMP1S = HTMP1S + 
     $          A(1,L,I)*B(1,L,J) - A(2,L,I)*CONJG(B(2,L,J))
              HTMP1J = HTMP1J + 
     $          A(1,L,I)*B(2,L,J) + A(2,L,I)*CONJG(B(1,L,J))
  110       CONTINUE

            IF( BZERO ) THEN
              C(1,I,J) = ALPHA(1)*HTMP1S - ALPHA(2)*CONJG(HTMP1J)
              C(2,I,J) = ALPHA(1)*HTMP1J + ALPHA(2)*CONJG(HTMP1S)
            ELSE
              C(1,I,J) = ALPHA(1)*HTMP1S - ALPHA(2)*CONJG(HTMP1J) + 
     $          BETA * C(1,I,J)
              C(2,I,J) = ALPHA(1)*HTMP1J + ALPHA(2)*CONJG(HTMP1S) + 
     $          BETA * C(2,I,J)
            ENDIF
  100     CONTINUE
        ENDIF
      ELSE IF ( NOTA ) THEN
        IF ( CONJB ) THEN
C
C         C_{IJ} = ALPHA * A_{IK} * CONJ(B_{JK}) + BETA * C_{IJ}
C
          DO 120 J = 1,N
            IF ( BZERO ) THEN
              DO 130 I = 1,M
                C(1,I,J) = ZERO
                C(2,I,J) = ZERO
  130         CONTINUE
            ELSEIF ( .NOT. BONE ) THEN
              DO 140 I = 1,M
                C(1,I,J) = BETA * C(1,I,J) 
                C(2,I,J) = BETA * C(2,I,J) 
  140         CONTINUE
            ENDIF
C
            DO 150 L = 1,K
              HTMP1S = ALPHA(1) * B(1,J,L) ! AE
              HTMP1J = -ALPHA(1) * B(2,J,L) ! AF
              HTMP2S = ALPHA(1) * CONJG(B(1,J,L)) ! A CONJ(E)
              HTMP2J = -ALPHA(1) * CONJG(B(2,J,L)) ! A CONJ(F)
              HTMP3S = ALPHA(2) * B(1,J,L) ! BE
              HTMP3J = -ALPHA(2) * B(2,J,L) ! BF
              HTMP4S = ALPHA(2) * CONJG(B(1,J,L)) ! B CONJ(E)
              HTMP4J = -ALPHA(2) * CONJG(B(2,J,L)) ! B CONJ(F)
              DO 160 I = 1,M
C               Hamilton Product (IMPLIES CONJB)
                C(1,I,J) = C(1,I,J) + 
     $            A(1,I,L)*HTMP2S - A(2,I,L)*HTMP2J - 
     $            CONJG(A(1,I,L))*HTMP4J - CONJG(A(2,I,L))*HTMP4S 
                C(2,I,J) = C(2,I,J) + 
     $            A(1,I,L)*HTMP1J + A(2,I,L)*HTMP1S +
     $            CONJG(A(1,I,L))*HTMP3S - CONJG(A(2,I,L))*HTMP3J
  160         CONTINUE
  150       CONTINUE
  120     CONTINUE
        ELSE
C         Implies TRANSB == 'T'
C
C         C_{IJ} = ALPHA * A_{IK} * B_{JK} + BETA * C_{IJ}
C
          DO 170 J = 1,N
            IF ( BZERO ) THEN
              DO 180 I = 1,M
                C(1,I,J) = ZERO
                C(2,I,J) = ZERO
  180         CONTINUE
            ELSEIF ( .NOT. BONE ) THEN
              DO 190 I = 1,M
                C(1,I,J) = BETA * C(1,I,J) 
                C(2,I,J) = BETA * C(2,I,J) 
  190         CONTINUE
            ENDIF
C
            DO 200 L = 1,K
              HTMP1S = ALPHA(1) * B(1,J,L) ! AE
              HTMP1J = ALPHA(1) * B(2,J,L) ! AF
              HTMP2S = ALPHA(1) * CONJG(B(1,J,L)) ! A CONJ(E)
              HTMP2J = ALPHA(1) * CONJG(B(2,J,L)) ! A CONJ(F)
              HTMP3S = ALPHA(2) * B(1,J,L) ! BE
              HTMP3J = ALPHA(2) * B(2,J,L) ! BF
              HTMP4S = ALPHA(2) * CONJG(B(1,J,L)) ! B CONJ(E)
              HTMP4J = ALPHA(2) * CONJG(B(2,J,L)) ! B CONJ(F)
              DO 210 I = 1,M
C               Hamilton Product
                C(1,I,J) = C(1,I,J) + 
     $            A(1,I,L)*HTMP1S - A(2,I,L)*HTMP2J - 
     $            CONJG(A(1,I,L))*HTMP4J - CONJG(A(2,I,L))*HTMP3S 
                C(2,I,J) = C(2,I,J) + 
     $            A(1,I,L)*HTMP1J + A(2,I,L)*HTMP2S +
     $            CONJG(A(1,I,L))*HTMP4S - CONJG(A(2,I,L))*HTMP3J
  210         CONTINUE
  200       CONTINUE
  170     CONTINUE
        ENDIF
      ELSE IF ( CONJA ) THEN
        IF ( CONJB ) THEN
C
C         C_{IJ} = ALPHA * CONJ(A_{KI}) * CONJ(B_{JK}) + BETA * C_{IJ}
C
          DO 220 J = 1,N
          DO 220 I = 1,M
            HTMP1S = ZERO 
            HTMP1J = ZERO 
            DO 230 L = 1,K
C             Hamilton Product (IMPLIED CONJ(A) + CONJ(B))
              HTMP1S = HTMP1S + 
     $          CONJG(A(1,L,I))*CONJG(B(1,J,L)) - 
     $          A(2,L,I)*CONJG(B(2,J,L))
              HTMP1J = HTMP1J - 
     $          CONJG(A(1,L,I))*B(2,J,L) - A(2,L,I)*B(1,J,L)
  230       CONTINUE
C
            IF( BZERO ) THEN
              C(1,I,J) = ALPHA(1)*HTMP1S - ALPHA(2)*CONJG(HTMP1J)
              C(2,I,J) = ALPHA(1)*HTMP1J + ALPHA(2)*CONJG(HTMP1S)
            ELSE
              C(1,I,J) = ALPHA(1)*HTMP1S - ALPHA(2)*CONJG(HTMP1J) + 
     $          BETA * C(1,I,J)
              C(2,I,J) = ALPHA(1)*HTMP1J + ALPHA(2)*CONJG(HTMP1S) + 
     $          BETA * C(2,I,J)
            ENDIF
  220     CONTINUE
        ELSE
C         Implies TRANSB == 'T'
C
C         C_{IJ} = ALPHA * CONJ(A_{KI}) * B_{JK} + BETA * C_{IJ}
C
          DO 240 J = 1,N
          DO 240 I = 1,M
            HTMP1S = ZERO 
            HTMP1J = ZERO 
            DO 250 L = 1,K
C             Hamilton Product (IMPLIED CONJ(A))
              HTMP1S = HTMP1S + 
     $          CONJG(A(1,L,I))*B(1,J,L) + A(2,L,I)*CONJG(B(2,J,L))
              HTMP1J = HTMP1J + 
     $          CONJG(A(1,L,I))*B(2,J,L) - A(2,L,I)*CONJG(B(1,J,L))
  250       CONTINUE
C
            IF( BZERO ) THEN
              C(1,I,J) = ALPHA(1)*HTMP1S - ALPHA(2)*CONJG(HTMP1J)
              C(2,I,J) = ALPHA(1)*HTMP1J + ALPHA(2)*CONJG(HTMP1S)
            ELSE
              C(1,I,J) = ALPHA(1)*HTMP1S - ALPHA(2)*CONJG(HTMP1J) + 
     $          BETA * C(1,I,J)
              C(2,I,J) = ALPHA(1)*HTMP1J + ALPHA(2)*CONJG(HTMP1S) + 
     $          BETA * C(2,I,J)
            ENDIF
  240     CONTINUE
        ENDIF
      ELSE
C       Implies TRANSA == 'T'
        IF ( CONJB ) THEN
C
C         C_{IJ} = ALPHA * A_{KI} * CONJ(B_{JK}) + BETA * C_{IJ}
C
          DO 260 J = 1,N
          DO 260 I = 1,M
            HTMP1S = ZERO 
            HTMP1J = ZERO 
            DO 270 L = 1,K
C             Hamilton Product (IMPLIED CONJ(B))
              HTMP1S = HTMP1S + 
     $          A(1,L,I)*CONJG(B(1,J,L)) + A(2,L,I)*CONJG(B(2,J,L))
              HTMP1J = HTMP1J - 
     $          A(1,L,I)*B(2,J,L) + A(2,L,I)*B(1,J,L)
  270       CONTINUE

            IF( BZERO ) THEN
              C(1,I,J) = ALPHA(1)*HTMP1S - ALPHA(2)*CONJG(HTMP1J)
              C(2,I,J) = ALPHA(1)*HTMP1J + ALPHA(2)*CONJG(HTMP1S)
            ELSE
              C(1,I,J) = ALPHA(1)*HTMP1S - ALPHA(2)*CONJG(HTMP1J) + 
     $          BETA * C(1,I,J)
              C(2,I,J) = ALPHA(1)*HTMP1J + ALPHA(2)*CONJG(HTMP1S) + 
     $          BETA * C(2,I,J)
            ENDIF
  260     CONTINUE
        ELSE
C
C         C_{IJ} = ALPHA * A_{KI} * B_{JK} + BETA * C_{IJ}
C
          DO 280 J = 1,N
          DO 280 I = 1,M
            HTMP1S = ZERO 
            HTMP1J = ZERO 
            DO 290 L = 1,K
C             Hamilton Product
              HTMP1S = HTMP1S + 
     $          A(1,L,I)*B(1,J,L) - A(2,L,I)*CONJG(B(2,J,L))
              HTMP1J = HTMP1J + 
     $          A(1,L,I)*B(2,J,L) + A(2,L,I)*CONJG(B(1,J,L))
  290       CONTINUE

            IF( BZERO ) THEN
              C(1,I,J) = ALPHA(1)*HTMP1S - ALPHA(2)*CONJG(HTMP1J)
              C(2,I,J) = ALPHA(1)*HTMP1J + ALPHA(2)*CONJG(HTMP1S)
            ELSE
              C(1,I,J) = ALPHA(1)*HTMP1S - ALPHA(2)*CONJG(HTMP1J) + 
     $          BETA * C(1,I,J)
              C(2,I,J) = ALPHA(1)*HTMP1J + ALPHA(2)*CONJG(HTMP1S) + 
     $          BETA * C(2,I,J)
            ENDIF
  280     CONTINUE
        ENDIF
      ENDIF
      END
".
(** src/hblas/fortran/hblas3/hgemmhh.f, all 368 lines *)
Definition src_hgemmhh : string := "C 
C     This file is a part of HAXX
C     
C     Copyright (c) 2017 David Williams-Young
C     All rights reserved.
C     
C     See LICENSE.txt 
C
      Subroutine HGEMMHH(TRANSA, TRANSB, M, N, K, ALPHA, A, LDA,
     $  B, LDB, BETA, C, LDC)
C
      LOGICAL LSAME
      EXTERNAL LSAME
C
      CHARACTER TRANSA, TRANSB
      LOGICAL   NOTA, NOTB, CONJA, CONJB, AZERO, AONE,
     $          BZERO, BONE
      INTEGER*4 M,N,K, LDA,LDB,LDC, I,J,L
      Complex*16    A(2,LDA,*), B(2,LDB,*), C(2,LDC,*), ALPHA(2),
     $  BETA(2)
C
      COMPLEX*16    HTMP1S, HTMP1J, HTMP2S, HTMP2J
      COMPLEX*16    HTMP3S, HTMP3J, HTMP4S, HTMP4J
C
      COMPLEX*16    ONE, ZERO
      PARAMETER (ONE=(1.0D+0,0.0D+0), ZERO=(0.0D+0,0.0D+0))
C

      NOTA  = LSAME(TRANSA,'N')
      NOTB  = LSAME(TRANSB,'N')
      CONJA = LSAME(TRANSA,'C')
      CONJB = LSAME(TRANSB,'C')

      AZERO = (ALPHA(1).EQ.ZERO).AND.((ALPHA(2).EQ.ZERO))
      AONE  = (ALPHA(1).EQ.ONE).AND.((ALPHA(2).EQ.ZERO))
      BZERO = (BETA(1).EQ.ZERO).AND.(BETA(2).EQ.ZERO)
      BONE = (BETA(1).EQ.ONE).AND.(BETA(2).EQ.ZERO)

C
C     Quick Return
C
      If ( (M.EQ.0) .OR. (N.EQ.0) ) RETURN
      If ( (AZERO .OR. (K.EQ.0)) .AND. BONE ) RETURN

C
C     ALPHA.EQ.ZERO
C
      IF ( AZERO ) THEN
        IF ( BZERO ) THEN
          DO 10 J = 1,N
          DO 10 I = 1,M
            C(1,I,J) = ZERO
            C(2,I,J) = ZERO
  10      CONTINUE
        ELSE
          DO 20 J = 1,N
          DO 20 I = 1,M
            HTMP1S   = BETA(1)*C(1,I,J) - BETA(2)*CONJG(C(2,I,J))
            C(2,I,J) = BETA(1)*C(2,I,J) + BETA(2)*CONJG(C(1,I,J)) 
            C(1,I,J) = HTMP1S
  20      CONTINUE
        ENDIF
        RETURN ! Nothing more to do
      ENDIF
C
      IF ( NOTB ) THEN
        IF ( NOTA ) THEN
C
C       C_{IJ} = ALPHA * A_{IK} * B_{KJ} + BETA * C_{IJ}
C
          DO 30 J = 1,N
            IF ( BZERO ) THEN
              DO 40 I = 1,M
                C(1,I,J) = ZERO
                C(2,I,J) = ZERO
  40          CONTINUE
            ELSEIF ( .NOT. BONE ) THEN
              DO 50 I = 1,M
                HTMP1S   = BETA(1)*C(1,I,J) - BETA(2)*CONJG(C(2,I,J))
                C(2,I,J) = BETA(1)*C(2,I,J) + BETA(2)*CONJG(C(1,I,J)) 
                C(1,I,J) = HTMP1S
  50          CONTINUE
            ENDIF
C
            DO 60 L = 1,K
              HTMP1S = ALPHA(1) * B(1,L,J) ! AE
              HTMP1J = ALPHA(1) * B(2,L,J) ! AF
              HTMP2S = ALPHA(1) * CONJG(B(1,L,J)) ! A CONJ(E)
              HTMP2J = ALPHA(1) * CONJG(B(2,L,J)) ! A CONJ(F)
              HTMP3S = ALPHA(2) * B(1,L,J) ! BE
              HTMP3J = ALPHA(2) * B(2,L,J) ! BF
              HTMP4S = ALPHA(2) * CONJG(B(1,L,J)) ! B CONJ(E)
              HTMP4J = ALPHA(2) * CONJG(B(2,L,J)) ! B CONJ(F)
              DO 70 I = 1,M
C               Hamilton Product
                C(1,I,J) = C(1,I,J) + 
     $            A(1,I,L)*HTMP1S - A(2,I,L)*HTMP2J - 
     $            CONJG(A(1,I,L))*HTMP4J - CONJG(A(2,I,L))*HTMP3S 
                C(2,I,J) = C(2,I,J) + 
     $            A(1,I,L)*HTMP1J + A(2,I,L)*HTMP2S +
     $            CONJG(A(1,I,L))*HTMP4S - CONJG(A(2,I,L))*HTMP3J
  70          CONTINUE
  60        CONTINUE
  30      CONTINUE
        ELSE IF ( CONJA ) THEN
C
C         C_{IJ} = ALPHA * CONJ(A_{KI}) * B_{KJ} + BETA * C_{IJ}
C
          DO 80 J = 1,N
          DO 80 I = 1,M
            HTMP1S = ZERO 
            HTMP1J = ZERO 
            DO 90 L = 1,K
C             Hamilton Product (IMPLIED CONJ(A))
              HTMP1S = HTMP1S + 
     $          CONJG(A(1,L,I))*B(1,L,J) + A(2,L,I)*CONJG(B(2,L,J))
              HTMP1J = HTMP1J + 
     $          CONJG(A(1,L,I))*B(2,L,J) - A(2,L,I)*CONJG(B(1,L,J))
  90        CONTINUE
C
            IF( BZERO ) THEN
              C(1,I,J) = ALPHA(1)*HTMP1S - ALPHA(2)*CONJG(HTMP1J)
              C(2,I,J) = ALPHA(1)*HTMP1J + ALPHA(2)*CONJG(HTMP1S)
            ELSE
              HTMP2S    = 
     $          ALPHA(1)*HTMP1S - ALPHA(2)*CONJG(HTMP1J) +
     $          BETA(1)*C(1,I,J) - BETA(2)*CONJG(C(2,I,J))
              C(2,I,J) = 
     $          ALPHA(1)*HTMP1J + ALPHA(2)*CONJG(HTMP1S) + 
     $          BETA(1)*C(2,I,J) + BETA(2)*CONJG(C(1,I,J))
              C(1,I,J) = HTMP2S
            ENDIF
  80      CONTINUE
        ELSE
C         IMPLIES TRANSA == 'T'
C
C         C_{IJ} = ALPHA * A_{KI} * B_{KJ} + BETA * C_{IJ}
C
          DO 100 J = 1,N
          DO 100 I = 1,M
            HTMP1S = ZERO 
            HTMP1J = ZERO 
            DO 110 L = 1,K
C             Hamilton Product
              HTMP1S = HTMP1S + 
     $          A(1,L,I)*B(1,L,J) - A(2,L,I)*CONJG(B(2,L,J))
              HTMP1J = HTMP1J + 
     $          A(1,L,I)*B(2,L,J) + A(2,L,I)*CONJG(B(1,L,J))
  110       CONTINUE

            IF( BZERO ) THEN
              C(1,I,J) = ALPHA(1)*HTMP1S - ALPHA(2)*CONJG(HTMP1J)
              C(2,I,J) = ALPHA(1)*HTMP1J + ALPHA(2)*CONJG(HTMP1S)
            ELSE
              HTMP2S    = 
     $          ALPHA(1)*HTMP1S - ALPHA(2)*CONJG(HTMP1J) +
     $          BETA(1)*C(1,I,J) - BETA(2)*CONJG(C(2,I,J))
              C(2,I,J) = 
     $          ALPHA(1)*HTMP1J + ALPHA(2)*CONJG(HTMP1S) + 
     $          BETA(1)*C(2,I,J) + BETA(2)*CONJG(C(1,I,J))
              C(1,I,J) = HTMP2S
            ENDIF
  100     CONTINUE
        ENDIF
      ELSE IF ( NOTA ) THEN
        IF ( CONJB ) THEN
C
C         C_{IJ} = ALPHA * A_{IK} * CONJ(B_{JK}) + BETA * C_{IJ}
C
          DO 120 J = 1,N
            IF ( BZERO ) THEN
              DO 130 I = 1,M
                C(1,I,J) = ZERO
                C(2,I,J) = ZERO
  130         CONTINUE
            ELSEIF ( .NOT. BONE ) THEN
              DO 140 I = 1,M
                HTMP1S   = BETA(1)*C(1,I,J) - BETA(2)*CONJG(C(2,I,J))
                C(2,I,J) = BETA(1)*C(2,I,J) + BETA(2)*CONJG(C(1,I,J)) 
                C(1,I,J) = HTMP1S
  140         CONTINUE
            ENDIF
C
            DO 150 L = 1,K
              HTMP1S = ALPHA(1) * B(1,J,L) ! AE
              HTMP1J = -ALPHA(1) * B(2,J,L) ! AF
              HTMP2S = ALPHA(1) * CONJG(B(1,J,L)) ! A CONJ(E)
              HTMP2J = -ALPHA(1) * CONJG(B(2,J,L)) ! A CONJ(F)
              HTMP3S = ALPHA(2) * B(1,J,L) ! BE
              HTMP3J = -ALPHA(2) * B(2,J,L) ! BF
              HTMP4S = ALPHA(2) * CONJG(B(1,J,L)) ! B CONJ(E)
              HTMP4J = -ALPHA(2) * CONJG(B(2,J,L)) ! B CONJ(F)
              DO 160 I = 1,M
C               Hamilton Product (IMPLIES CONJB)
                C(1,I,J) = C(1,I,J) + 
     $            A(1,I,L)*HTMP2S - A(2,I,L)*HTMP2J - 
     $            CONJG(A(1,I,L))*HTMP4J - CONJG(A(2,I,L))*HTMP4S 
                C(2,I,J) = C(2,I,J) + 
     $            A(1,I,L)*HTMP1J + A(2,I,L)*HTMP1S +
     $            CONJG(A(1,I,L))*HTMP3S - CONJG(A(2,I,L))*HTMP3J
  160         CONTINUE
  150       CONTINUE
  120     CONTINUE
        ELSE
C         Implies TRANSB == 'T'
C
C         C_{IJ} = ALPHA * A_{IK} * B_{JK} + BETA * C_{IJ}
C
          DO 170 J = 1,N
            IF ( BZERO ) THEN
              DO 180 I = 1,M
                C(1,I,J) = ZERO
                C(2,I,J) = ZERO
  180         CONTINUE
            ELSEIF ( .NOT. BONE ) THEN
              DO 190 I = 1,M
                HTMP1S   = BETA(1)*C(1,I,J) - BETA(2)*CONJG(C(2,I,J))
                C(2,I,J) = BETA(1)*C(2,I,J) + BETA(2)*CONJG(C(1,I,J)) 
                C(1,I,J) = HTMP1S
  190         CONTINUE
            ENDIF
C
            DO 200 L = 1,K
              HTMP1S = ALPHA(1) * B(1,J,L) ! AE
              HTMP1J = ALPHA(1) * B(2,J,L) ! AF
              HTMP2S = ALPHA(1) * CONJG(B(1,J,L)) ! A CONJ(E)
              HTMP2J = ALPHA(1) * CONJG(B(2,J,L)) ! A CONJ(F)
              HTMP3S = ALPHA(2) * B(1,J,L) ! BE
              HTMP3J = ALPHA(2) * B(2,J,L) ! BF
              HTMP4S = ALPHA(2) * CONJG(B(1,J,L)) ! B CONJ(E)
              HTMP4J = ALPHA(2) * CONJG(B(2,J,L)) ! B CONJ(F)
              DO 210 I = 1,M
C               Hamilton Product
                C(1,I,J) = C(1,I,J) + 
     $            A(1,I,L)*HTMP1S - A(2,I,L)*HTMP2J - 
     $            CONJG(A(1,I,L))*HTMP4J - CONJG(A(2,I,L))*HTMP3S 
                C(2,I,J) = C(2,I,J) + 
     $            A(1,I,L)*HTMP1J + A(2,I,L)*HTMP2S +
     $            CONJG(A(1,I,L))*HTMP4S - CONJG(A(2,I,L))*HTMP3J
  210         CONTINUE
  200       CONTINUE
  170     CONTINUE
        ENDIF
      ELSE IF ( CONJA ) THEN
        IF ( CONJB ) THEN
C
C         C_{IJ} = ALPHA * CONJ(A_{KI}) * CONJ(B_{JK}) + BETA * C_{IJ}
C
          DO 220 J = 1,N
          DO 220 I = 1,M
            HTMP1S = ZERO 
            HTMP1J = ZERO 
            DO 230 L = 1,K
C             Hamilton Product (IMPLIED CONJ(A) + CONJ(B))
              HTMP1S = HTMP1S + 
     $          CONJG(A(1,L,I))*CONJG(B(1,J,L)) - 
     $          A(2,L,I)*CONJG(B(2,J,L))
              HTMP1J = HTMP1J - 
     $          CONJG(A(1,L,I))*B(2,J,L) - A(2,L,I)*B(1,J,L)
  230       CONTINUE
C
            IF( BZERO ) THEN
              C(1,I,J) = ALPHA(1)*HTMP1S - ALPHA(2)*CONJG(HTMP1J)
              C(2,I,J) = ALPHA(1)*HTMP1J + ALPHA(2)*CONJG(HTMP1S)
            ELSE
              HTMP2S    = 
     $          ALPHA(1)*HTMP1S - ALPHA(2)*CONJG(HTMP1J) +
     $          BETA(1)*C(1,I,J) - BETA(2)*CONJG(C(2,I,J))
              C(2,I,J) = 
     $          ALPHA(1)*HTMP1J + ALPHA(2)*CONJG(HTMP1S) + 
     $          BETA(1)*C(2,I,J) + BETA(2)*CONJG(C(1,I,J))
              C(1,I,J) = HTMP2S
            ENDIF
  220     CONTINUE
        ELSE
C         Implies TRANSB == 'T'
C
C         C_{IJ} = ALPHA * CONJ(A_{KI}) * B_{JK} + BETA * C_{IJ}
C
          DO 240 J = 1,N
          DO 240 I = 1,M
            HTMP1S = ZERO 
            HTMP1J = ZERO 
            DO 250 L = 1,K
C             Hamilton Product (IMPLIED CONJ(A))
              HTMP1S = HTMP1S + 
     $          CONJG(A(1,L,I))*B(1,J,L) + A(2,L,I)*CONJG(B(2,J,L))
              HTMP1J = HTMP1J + 
     $          CONJG(A(1,L,I))*B(2,J,L) - A(2,L,I)*CONJG(B(1,J,L))
  250       CONTINUE
C
            IF( BZERO ) THEN
              C(1,I,J) = ALPHA(1)*HTMP1S - ALPHA(2)*CONJG(HTMP1J)
              C(2,I,J) = ALPHA(1)*HTMP1J + ALPHA(2)*CONJG(HTMP1S)
            ELSE
              HTMP2S    = 
     $          ALPHA(1)*HTMP1S - ALPHA(2)*CONJG(HTMP1J) +
     $          BETA(1)*C(1,I,J) - BETA(2)*CONJG(C(2,I,J))
              C(2,I,J) = 
     $          ALPHA(1)*HTMP1J + ALPHA(2)*CONJG(HTMP1S) + 
     $          BETA(1)*C(2,I,J) + BETA(2)*CONJG(C(1,I,J))
              C(1,I,J) = HTMP2S
            ENDIF
  240     CONTINUE
        ENDIF
      ELSE
C       Implies TRANSA == 'T'
        IF ( CONJB ) THEN
C
C         C_{IJ} = ALPHA * A_{KI} * CONJ(B_{JK}) + BETA * C_{IJ}
C
          DO 260 J = 1,N
          DO 260 I = 1,M
            HTMP1S = ZERO 
            HTMP1J = ZERO 
            DO 270 L = 1,K
C             Hamilton Product (IMPLIED CONJ(B))
              HTMP1S = HTMP1S + 
     $          A(1,L,I)*CONJG(B(1,J,L)) + A(2,L,I)*CONJG(B(2,J,L))
              HTMP1J = HTMP1J - 
     $          A(1,L,I)*B(2,J,L) + A(2,L,I)*B(1,J,L)
  270       CONTINUE

            IF( BZERO ) THEN
              C(1,I,J) = ALPHA(1)*HTMP1S - ALPHA(2)*CONJG(HTMP1J)
              C(2,I,J) = ALPHA(1)*HTMP1J + ALPHA(2)*CONJG(HTMP1S)
            ELSE
              HTMP2S    = 
     $          ALPHA(1)*HTMP1S - ALPHA(2)*CONJG(HTMP1J) +
     $          BETA(1)*C(1,I,J) - BETA(2)*CONJG(C(2,I,J))
              C(2,I,J) = 
     $          ALPHA(1)*HTMP1J + ALPHA(2)*CONJG(HTMP1S) + 
     $          BETA(1)*C(2,I,J) + BETA(2)*CONJG(C(1,I,J))
              C(1,I,J) = HTMP2S
            ENDIF
  260     CONTINUE
        ELSE
C
C         C_{IJ} = ALPHA * A_{KI} * B_{JK} + BETA * C_{IJ}
C
          DO 280 J = 1,N
          DO 280 I = 1,M
            HTMP1S = ZERO 
            HTMP1J = ZERO 
            DO 290 L = 1,K
C             Hamilton Product
              HTMP1S = HTMP1S + 
     $          A(1,L,I)*B(1,J,L) - A(2,L,I)*CONJG(B(2,J,L))
              HTMP1J = HTMP1J + 
     $          A(1,L,I)*B(2,J,L) + A(2,L,I)*CONJG(B(1,J,L))
  290       CONTINUE

            IF( BZERO ) THEN
              C(1,I,J) = ALPHA(1)*HTMP1S - ALPHA(2)*CONJG(HTMP1J)
              C(2,I,J) = ALPHA(1)*HTMP1J + ALPHA(2)*CONJG(HTMP1S)
            ELSE
              HTMP2S    = 
     $          ALPHA(1)*HTMP1S - ALPHA(2)*CONJG(HTMP1J) +
     $          BETA(1)*C(1,I,J) - BETA(2)*CONJG(C(2,I,J))
              C(2,I,J) = 
     $          ALPHA(1)*HTMP1J + ALPHA(2)*CONJG(HTMP1S) + 
     $          BETA(1)*C(2,I,J) + BETA(2)*CONJG(C(1,I,J))
              C(1,I,J) = HTMP2S
            ENDIF
  280     CONTINUE
        ENDIF
      ENDIF
      END
".
(** src/hblas/fortran/hblas3/hgemmhz.f, all 345 lines *)
Definition src_hgemmhz : string := "C 
C     This file is a part of HAXX
C     
C     Copyright (c) 2017 David Williams-Young
C     All rights reserved.
C     
C     See LICENSE.txt 
C
      Subroutine HGEMMHZ(TRANSA, TRANSB, M, N, K, ALPHA, A, LDA,
     $  B, LDB, BETA, C, LDC)
C
      LOGICAL LSAME
      EXTERNAL LSAME
C
      CHARACTER TRANSA, TRANSB
      LOGICAL   NOTA, NOTB, CONJA, CONJB, AZERO, AONE,
     $          BZERO, BONE
      INTEGER*4 M,N,K, LDA,LDB,LDC, I,J,L
      Complex*16    A(2,LDA,*), B(2,LDB,*), C(2,LDC,*), ALPHA(2), BETA
C
      COMPLEX*16    HTMP1S, HTMP1J, HTMP2S, HTMP2J
      COMPLEX*16    HTMP3S, HTMP3J, HTMP4S, HTMP4J
C
      COMPLEX*16    ONE, ZERO
      PARAMETER (ONE=(1.0D+0,0.0D+0), ZERO=(0.0D+0,0.0D+0))
C

      NOTA  = LSAME(TRANSA,'N')
      NOTB  = LSAME(TRANSB,'N')
      CONJA = LSAME(TRANSA,'C')
      CONJB = LSAME(TRANSB,'C')

      AZERO = (ALPHA(1).EQ.ZERO).AND.((ALPHA(2).EQ.ZERO))
      AONE  = (ALPHA(1).EQ.ONE).AND.((ALPHA(2).EQ.ZERO))
      BZERO = BETA.EQ.ZERO
      BONE  = BETA.EQ.ONE

C
C     Quick Return
C
      If ( (M.EQ.0) .OR. (N.EQ.0) ) RETURN
      If ( (AZERO .OR. (K.EQ.0)) .AND. BONE ) RETURN

C
C     ALPHA.EQ.ZERO
C
      IF ( AZERO ) THEN
        IF ( BZERO ) THEN
          DO 10 J = 1,N
          DO 10 I = 1,M
            C(1,I,J) = ZERO
            C(2,I,J) = ZERO
  10      CONTINUE
        ELSE
          DO 20 J = 1,N
          DO 20 I = 1,M
            C(1,I,J) = BETA * C(1,I,J) 
            C(2,I,J) = BETA * C(2,I,J) 
  20      CONTINUE
        ENDIF
        RETURN ! Nothing more to do
      ENDIF
C
      IF ( NOTB ) THEN
        IF ( NOTA ) THEN
C
C       C_{IJ} = ALPHA * A_{IK} * B_{KJ} + BETA * C_{IJ}
C
          DO 30 J = 1,N
            IF ( BZERO ) THEN
              DO 40 I = 1,M
                C(1,I,J) = ZERO
                C(2,I,J) = ZERO
  40          CONTINUE
            ELSEIF ( .NOT. BONE ) THEN
              DO 50 I = 1,M
                C(1,I,J) = BETA * C(1,I,J) 
                C(2,I,J) = BETA * C(2,I,J) 
  50          CONTINUE
            ENDIF
C
            DO 60 L = 1,K
              HTMP1S = ALPHA(1) * B(1,L,J) ! AE
              HTMP1J = ALPHA(1) * B(2,L,J) ! AF
              HTMP2S = ALPHA(1) * CONJG(B(1,L,J)) ! A CONJ(E)
              HTMP2J = ALPHA(1) * CONJG(B(2,L,J)) ! A CONJ(F)
              HTMP3S = ALPHA(2) * B(1,L,J) ! BE
              HTMP3J = ALPHA(2) * B(2,L,J) ! BF
              HTMP4S = ALPHA(2) * CONJG(B(1,L,J)) ! B CONJ(E)
              HTMP4J = ALPHA(2) * CONJG(B(2,L,J)) ! B CONJ(F)
              DO 70 I = 1,M
C               Hamilton Product
                C(1,I,J) = C(1,I,J) + 
     $            A(1,I,L)*HTMP1S - A(2,I,L)*HTMP2J - 
     $            CONJG(A(1,I,L))*HTMP4J - CONJG(A(2,I,L))*HTMP3S 
                C(2,I,J) = C(2,I,J) + 
     $            A(1,I,L)*HTMP1J + A(2,I,L)*HTMP2S +
     $            CONJG(A(1,I,L))*HTMP4S - CONJG(A(2,I,L))*HTMP3J
  70          CONTINUE
  60        CONTINUE
  30      CONTINUE
        ELSE IF ( CONJA ) THEN
C
C         C_{IJ} = ALPHA * CONJ(A_{KI}) * B_{KJ} + BETA * C_{IJ}
C
          DO 80 J = 1,N
          DO 80 I = 1,M
            HTMP1S = ZERO 
            HTMP1J = ZERO 
            DO 90 L = 1,K
C             Hamilton Product (IMPLIED CONJ(A))
              HTMP1S = HTMP1S + 
     $          CONJG(A(1,L,I))*B(1,L,J) + A(2,L,I)*CONJG(B(2,L,J))
              HTMP1J = HTMP1J + 
     $          CONJG(A(1,L,I))*B(2,L,J) - A(2,L,I)*CONJG(B(1,L,J))
  90        CONTINUE
C
            IF( BZERO ) THEN
              C(1,I,J) = ALPHA(1)*HTMP1S - ALPHA(2)*CONJG(HTMP1J)
              C(2,I,J) = ALPHA(1)*HTMP1J + ALPHA(2)*CONJG(HTMP1S)
            ELSE
              C(1,I,J) = ALPHA(1)*HTMP1S - ALPHA(2)*CONJG(HTMP1J) + 
     $          BETA * C(1,I,J)
              C(2,I,J) = ALPHA(1)*HTMP1J + ALPHA(2)*CONJG(HTMP1S) + 
     $          BETA * C(2,I,J)
            ENDIF
  80      CONTINUE
        ELSE
C         IMPLIES TRANSA == 'T'
C
C         C_{IJ} = ALPHA * A_{KI} * B_{KJ} + BETA * C_{IJ}
C
          DO 100 J = 1,N
          DO 100 I = 1,M
            HTMP1S = ZERO 
            HTMP1J = ZERO 
            DO 110 L = 1,K
C             Hamilton Product
              HTMP1S = HTMP1S + 
     $          A(1,L,I)*B(1,L,J) - A(2,L,I)*CONJG(B(2,L,J))
              HTMP1J = HTMP1J + 
     $          A(1,L,I)*B(2,L,J) + A(2,L,I)*CONJG(B(1,L,J))
  110       CONTINUE

            IF( BZERO ) THEN
              C(1,I,J) = ALPHA(1)*HTMP1S - ALPHA(2)*CONJG(HTMP1J)
              C(2,I,J) = ALPHA(1)*HTMP1J + ALPHA(2)*CONJG(HTMP1S)
            ELSE
              C(1,I,J) = ALPHA(1)*HTMP1S - ALPHA(2)*CONJG(HTMP1J) + 
     $          BETA * C(1,I,J)
              C(2,I,J) = ALPHA(1)*HTMP1J + ALPHA(2)*CONJG(HTMP1S) + 
     $          BETA * C(2,I,J)
            ENDIF
  100     CONTINUE
        ENDIF
      ELSE IF ( NOTA ) THEN
        IF ( CONJB ) THEN
C
C         C_{IJ} = ALPHA * A_{IK} * CONJ(B_{JK}) + BETA * C_{IJ}
C
          DO 120 J = 1,N
            IF ( BZERO ) THEN
              DO 130 I = 1,M
                C(1,I,J) = ZERO
                C(2,I,J) = ZERO
  130         CONTINUE
            ELSEIF ( .NOT. BONE ) THEN
              DO 140 I = 1,M
                C(1,I,J) = BETA * C(1,I,J) 
                C(2,I,J) = BETA * C(2,I,J) 
  140         CONTINUE
            ENDIF
C
            DO 150 L = 1,K
              HTMP1S = ALPHA(1) * B(1,J,L) ! AE
              HTMP1J = -ALPHA(1) * B(2,J,L) ! AF
              HTMP2S = ALPHA(1) * CONJG(B(1,J,L)) ! A CONJ(E)
              HTMP2J = -ALPHA(1) * CONJG(B(2,J,L)) ! A CONJ(F)
              HTMP3S = ALPHA(2) * B(1,J,L) ! BE
              HTMP3J = -ALPHA(2) * B(2,J,L) ! BF
              HTMP4S = ALPHA(2) * CONJG(B(1,J,L)) ! B CONJ(E)
              HTMP4J = -ALPHA(2) * CONJG(B(2,J,L)) ! B CONJ(F)
              DO 160 I = 1,M
C               Hamilton Product (IMPLIES CONJB)
                C(1,I,J) = C(1,I,J) + 
     $            A(1,I,L)*HTMP2S - A(2,I,L)*HTMP2J - 
     $            CONJG(A(1,I,L))*HTMP4J - CONJG(A(2,I,L))*HTMP4S 
                C(2,I,J) = C(2,I,J) + 
     $            A(1,I,L)*HTMP1J + A(2,I,L)*HTMP1S +
     $            CONJG(A(1,I,L))*HTMP3S - CONJG(A(2,I,L))*HTMP3J
  160         CONTINUE
  150       CONTINUE
  120     CONTINUE
        ELSE
C         Implies TRANSB == 'T'
C
C         C_{IJ} = ALPHA * A_{IK} * B_{JK} + BETA * C_{IJ}
C
          DO 170 J = 1,N
            IF ( BZERO ) THEN
              DO 180 I = 1,M
                C(1,I,J) = ZERO
                C(2,I,J) = ZERO
  180         CONTINUE
            ELSEIF ( .NOT. BONE ) THEN
              DO 190 I = 1,M
                C(1,I,J) = BETA * C(1,I,J) 
                C(2,I,J) = BETA * C(2,I,J) 
  190         CONTINUE
            ENDIF
C
            DO 200 L = 1,K
              HTMP1S = ALPHA(1) * B(1,J,L) ! AE
              HTMP1J = ALPHA(1) * B(2,J,L) ! AF
              HTMP2S = ALPHA(1) * CONJG(B(1,J,L)) ! A CONJ(E)
              HTMP2J = ALPHA(1) * CONJG(B(2,J,L)) ! A CONJ(F)
              HTMP3S = ALPHA(2) * B(1,J,L) ! BE
              HTMP3J = ALPHA(2) * B(2,J,L) ! BF
              HTMP4S = ALPHA(2) * CONJG(B(1,J,L)) ! B CONJ(E)
              HTMP4J = ALPHA(2) * CONJG(B(2,J,L)) ! B CONJ(F)
              DO 210 I = 1,M
C               Hamilton Product
                C(1,I,J) = C(1,I,J) + 
     $            A(1,I,L)*HTMP1S - A(2,I,L)*HTMP2J - 
     $            CONJG(A(1,I,L))*HTMP4J - CONJG(A(2,I,L))*HTMP3S 
                C(2,I,J) = C(2,I,J) + 
     $            A(1,I,L)*HTMP1J + A(2,I,L)*HTMP2S +
     $            CONJG(A(1,I,L))*HTMP4S - CONJG(A(2,I,L))*HTMP3J
  210         CONTINUE
  200       CONTINUE
  170     CONTINUE
        ENDIF
      ELSE IF ( CONJA ) THEN
        IF ( CONJB ) THEN
C
C         C_{IJ} = ALPHA * CONJ(A_{KI}) * CONJ(B_{JK}) + BETA * C_{IJ}
C
          DO 220 J = 1,N
          DO 220 I = 1,M
            HTMP1S = ZERO 
            HTMP1J = ZERO 
            DO 230 L = 1,K
C             Hamilton Product (IMPLIED CONJ(A) + CONJ(B))
              HTMP1S = HTMP1S + 
     $          CONJG(A(1,L,I))*CONJG(B(1,J,L)) - 
     $          A(2,L,I)*CONJG(B(2,J,L))
              HTMP1J = HTMP1J - 
     $          CONJG(A(1,L,I))*B(2,J,L) - A(2,L,I)*B(1,J,L)
  230       CONTINUE
C
            IF( BZERO ) THEN
              C(1,I,J) = ALPHA(1)*HTMP1S - ALPHA(2)*CONJG(HTMP1J)
              C(2,I,J) = ALPHA(1)*HTMP1J + ALPHA(2)*CONJG(HTMP1S)
            ELSE
              C(1,I,J) = ALPHA(1)*HTMP1S - ALPHA(2)*CONJG(HTMP1J) + 
     $          BETA * C(1,I,J)
              C(2,I,J) = ALPHA(1)*HTMP1J + ALPHA(2)*CONJG(HTMP1S) + 
     $          BETA * C(2,I,J)
            ENDIF
  220     CONTINUE
        ELSE
C         Implies TRANSB == 'T'
C
C         C_{IJ} = ALPHA * CONJ(A_{KI}) * B_{JK} + BETA * C_{IJ}
C
          DO 240 J = 1,N
          DO 240 I = 1,M
            HTMP1S = ZERO 
            HTMP1J = ZERO 
            DO 250 L = 1,K
C             Hamilton Product (IMPLIED CONJ(A))
              HTMP1S = HTMP1S + 
     $          CONJG(A(1,L,I))*B(1,J,L) + A(2,L,I)*CONJG(B(2,J,L))
              HTMP1J = HTMP1J + 
     $          CONJG(A(1,L,I))*B(2,J,L) - A(2,L,I)*CONJG(B(1,J,L))
  250       CONTINUE
C
            IF( BZERO ) THEN
              C(1,I,J) = ALPHA(1)*HTMP1S - ALPHA(2)*CONJG(HTMP1J)
              C(2,I,J) = ALPHA(1)*HTMP1J + ALPHA(2)*CONJG(HTMP1S)
            ELSE
              C(1,I,J) = ALPHA(1)*HTMP1S - ALPHA(2)*CONJG(HTMP1J) + 
     $          BETA * C(1,I,J)
              C(2,I,J) = ALPHA(1)*HTMP1J + ALPHA(2)*CONJG(HTMP1S) + 
     $          BETA * C(2,I,J)
            ENDIF
  240     CONTINUE
        ENDIF
      ELSE
C       Implies TRANSA == 'T'
        IF ( CONJB ) THEN
C
C         C_{IJ} = ALPHA * A_{KI} * CONJ(B_{JK}) + BETA * C_{IJ}
C
          DO 260 J = 1,N
          DO 260 I = 1,M
            HTMP1S = ZERO 
            HTMP1J = ZERO 
            DO 270 L = 1,K
C             Hamilton Product (IMPLIED CONJ(B))
              HTMP1S = HTMP1S + 
     $          A(1,L,I)*CONJG(B(1,J,L)) + A(2,L,I)*CONJG(B(2,J,L))
              HTMP1J = HTMP1J - 
     $          A(1,L,I)*B(2,J,L) + A(2,L,I)*B(1,J,L)
  270       CONTINUE

            IF( BZERO ) THEN
              C(1,I,J) = ALPHA(1)*HTMP1S - ALPHA(2)*CONJG(HTMP1J)
              C(2,I,J) = ALPHA(1)*HTMP1J + ALPHA(2)*CONJG(HTMP1S)
            ELSE
              C(1,I,J) = ALPHA(1)*HTMP1S - ALPHA(2)*CONJG(HTMP1J) + 
     $          BETA * C(1,I,J)
              C(2,I,J) = ALPHA(1)*HTMP1J + ALPHA(2)*CONJG(HTMP1S) + 
     $          BETA * C(2,I,J)
            ENDIF
  260     CONTINUE
        ELSE
C
C         C_{IJ} = ALPHA * A_{KI} * B_{JK} + BETA * C_{IJ}
C
          DO 280 J = 1,N
          DO 280 I = 1,M
            HTMP1S = ZERO 
            HTMP1J = ZERO 
            DO 290 L = 1,K
C             Hamilton Product
              HTMP1S = HTMP1S + 
     $          A(1,L,I)*B(1,J,L) - A(2,L,I)*CONJG(B(2,J,L))
              HTMP1J = HTMP1J + 
     $          A(1,L,I)*B(2,J,L) + A(2,L,I)*CONJG(B(1,J,L))
  290       CONTINUE

            IF( BZERO ) THEN
              C(1,I,J) = ALPHA(1)*HTMP1S - ALPHA(2)*CONJG(HTMP1J)
              C(2,I,J) = ALPHA(1)*HTMP1J + ALPHA(2)*CONJG(HTMP1S)
            ELSE
              C(1,I,J) = ALPHA(1)*HTMP1S - ALPHA(2)*CONJG(HTMP1J) + 
     $          BETA * C(1,I,J)
              C(2,I,J) = ALPHA(1)*HTMP1J + ALPHA(2)*CONJG(HTMP1S) + 
     $          BETA * C(2,I,J)
            ENDIF
  280     CONTINUE
        ENDIF
      ENDIF
      END
".
(** src/hblas/fortran/hblas3/hgemmzd.f, all 315 lines *)
Definition src_hgemmzd : string := "C 
C     This file is a part of HAXX
C     
C     Copyright (c) 2017 David Williams-Young
C     All rights reserved.
C     
C     See LICENSE.txt 
C
      Subroutine HGEMMZD(TRANSA, TRANSB, M, N, K, ALPHA, A, LDA,
     $  B, LDB, BETA, C, LDC)
C
      LOGICAL LSAME
      EXTERNAL LSAME
C
      CHARACTER TRANSA, TRANSB
      LOGICAL   NOTA, NOTB, CONJA, CONJB, AZERO, AONE,
     $          BZERO, BONE
      INTEGER*4 M,N,K, LDA,LDB,LDC, I,J,L
      REAL*8    BETA
      Complex*16    A(2,LDA,*), B(2,LDB,*), C(2,LDC,*), ALPHA
C
      COMPLEX*16    HTMP1S, HTMP1J, HTMP2S, HTMP2J
C
      COMPLEX*16    ONE, ZERO
      PARAMETER (ONE=(1.0D+0,0.0D+0), ZERO=(0.0D+0,0.0D+0))
C

      NOTA  = LSAME(TRANSA,'N')
      NOTB  = LSAME(TRANSB,'N')
      CONJA = LSAME(TRANSA,'C')
      CONJB = LSAME(TRANSB,'C')

      AZERO = ALPHA.EQ.ZERO
      AONE  = ALPHA.EQ.ONE
      BZERO = BETA.EQ.ZERO
      BONE  = BETA.EQ.ONE

C
C     Quick Return
C
      If ( (M.EQ.0) .OR. (N.EQ.0) ) RETURN
      If ( (AZERO .OR. (K.EQ.0)) .AND. BONE ) RETURN

C
C     ALPHA.EQ.ZERO
C
      IF ( AZERO ) THEN
        IF ( BZERO ) THEN
          DO 10 J = 1,N
          DO 10 I = 1,M
            C(1,I,J) = ZERO
            C(2,I,J) = ZERO
  10      CONTINUE
        ELSE
          DO 20 J = 1,N
          DO 20 I = 1,M
            C(1,I,J) = BETA * C(1,I,J) 
            C(2,I,J) = BETA * C(2,I,J) 
  20      CONTINUE
        ENDIF
        RETURN ! Nothing more to do
      ENDIF
C
      IF ( NOTB ) THEN
        IF ( NOTA ) THEN
C
C       C_{IJ} = ALPHA * A_{IK} * B_{KJ} + BETA * C_{IJ}
C
          DO 30 J = 1,N
            IF ( BZERO ) THEN
              DO 40 I = 1,M
                C(1,I,J) = ZERO
                C(2,I,J) = ZERO
  40          CONTINUE
            ELSEIF ( .NOT. BONE ) THEN
              DO 50 I = 1,M
                C(1,I,J) = BETA * C(1,I,J) 
                C(2,I,J) = BETA * C(2,I,J) 
  50          CONTINUE
            ENDIF
C
            DO 60 L = 1,K
              HTMP1S = ALPHA * B(1,L,J) ! AE
              HTMP1J = ALPHA * B(2,L,J) ! AF
              HTMP2S = ALPHA * CONJG(B(1,L,J)) ! A CONJ(E)
              HTMP2J = ALPHA * CONJG(B(2,L,J)) ! A CONJ(F)
              DO 70 I = 1,M
C               Hamilton Product
                C(1,I,J) = C(1,I,J) + 
     $            A(1,I,L)*HTMP1S - A(2,I,L)*HTMP2J 
                C(2,I,J) = C(2,I,J) + 
     $            A(1,I,L)*HTMP1J + A(2,I,L)*HTMP2S
  70          CONTINUE
  60        CONTINUE
  30      CONTINUE
        ELSE IF ( CONJA ) THEN
C
C         C_{IJ} = ALPHA * CONJ(A_{KI}) * B_{KJ} + BETA * C_{IJ}
C
          DO 80 J = 1,N
          DO 80 I = 1,M
            HTMP1S = ZERO 
            HTMP1J = ZERO 
            DO 90 L = 1,K
C             Hamilton Product (IMPLIED CONJ(A))
              HTMP1S = HTMP1S + 
     $          CONJG(A(1,L,I))*B(1,L,J) + A(2,L,I)*CONJG(B(2,L,J))
              HTMP1J = HTMP1J + 
     $          CONJG(A(1,L,I))*B(2,L,J) - A(2,L,I)*CONJG(B(1,L,J))
  90        CONTINUE
C
            IF( BZERO ) THEN
              C(1,I,J) = ALPHA*HTMP1S
              C(2,I,J) = ALPHA*HTMP1J
            ELSE
              C(1,I,J) = ALPHA*HTMP1S + BETA * C(1,I,J)
              C(2,I,J) = ALPHA*HTMP1J + BETA * C(2,I,J)
            ENDIF
  80      CONTINUE
        ELSE
C         IMPLIES TRANSA == 'T'
C
C         C_{IJ} = ALPHA * A_{KI} * B_{KJ} + BETA * C_{IJ}
C
          DO 100 J = 1,N
          DO 100 I = 1,M
            HTMP1S = ZERO 
            HTMP1J = ZERO 
            DO 110 L = 1,K
C             Hamilton Product
              HTMP1S = HTMP1S + 
     $          A(1,L,I)*B(1,L,J) - A(2,L,I)*CONJG(B(2,L,J))
              HTMP1J = HTMP1J + 
     $          A(1,L,I)*B(2,L,J) + A(2,L,I)*CONJG(B(1,L,J))
  110       CONTINUE

            IF( BZERO ) THEN
              C(1,I,J) = ALPHA*HTMP1S
              C(2,I,J) = ALPHA*HTMP1J
            ELSE
              C(1,I,J) = ALPHA*HTMP1S + BETA * C(1,I,J)
              C(2,I,J) = ALPHA*HTMP1J + BETA * C(2,I,J)
            ENDIF
  100     CONTINUE
        ENDIF
      ELSE IF ( NOTA ) THEN
        IF ( CONJB ) THEN
C
C         C_{IJ} = ALPHA * A_{IK} * CONJ(B_{JK}) + BETA * C_{IJ}
C
          DO 120 J = 1,N
            IF ( BZERO ) THEN
              DO 130 I = 1,M
                C(1,I,J) = ZERO
                C(2,I,J) = ZERO
  130         CONTINUE
            ELSEIF ( .NOT. BONE ) THEN
              DO 140 I = 1,M
                C(1,I,J) = BETA * C(1,I,J) 
                C(2,I,J) = BETA * C(2,I,J) 
  140         CONTINUE
            ENDIF
C
            DO 150 L = 1,K
              HTMP1S = ALPHA * B(1,J,L) ! AE
              HTMP1J = -ALPHA * B(2,J,L) ! AF
              HTMP2S = ALPHA * CONJG(B(1,J,L)) ! A CONJ(E)
              HTMP2J = -ALPHA * CONJG(B(2,J,L)) ! A CONJ(F)
              DO 160 I = 1,M
C               Hamilton Product (IMPLIES CONJB)
                C(1,I,J) = C(1,I,J) + 
     $            A(1,I,L)*HTMP2S - A(2,I,L)*HTMP2J 
                C(2,I,J) = C(2,I,J) + 
     $            A(1,I,L)*HTMP1J + A(2,I,L)*HTMP1S
  160         CONTINUE
  150       CONTINUE
  120     CONTINUE
        ELSE
C         Implies TRANSB == 'T'
C
C         C_{IJ} = ALPHA * A_{IK} * B_{JK} + BETA * C_{IJ}
C
          DO 170 J = 1,N
            IF ( BZERO ) THEN
              DO 180 I = 1,M
                C(1,I,J) = ZERO
                C(2,I,J) = ZERO
  180         CONTINUE
            ELSEIF ( .NOT. BONE ) THEN
              DO 190 I = 1,M
                C(1,I,J) = BETA * C(1,I,J) 
                C(2,I,J) = BETA * C(2,I,J) 
  190         CONTINUE
            ENDIF
C
            DO 200 L = 1,K
              HTMP1S = ALPHA * B(1,J,L) ! AE
              HTMP1J = ALPHA * B(2,J,L) ! AF
              HTMP2S = ALPHA * CONJG(B(1,J,L)) ! A CONJ(E)
              HTMP2J = ALPHA * CONJG(B(2,J,L)) ! A CONJ(F)
              DO 210 I = 1,M
C               Hamilton Product
                C(1,I,J) = C(1,I,J) + 
     $            A(1,I,L)*HTMP1S - A(2,I,L)*HTMP2J 
                C(2,I,J) = C(2,I,J) + 
     $            A(1,I,L)*HTMP1J + A(2,I,L)*HTMP2S
  210         CONTINUE
  200       CONTINUE
  170     CONTINUE
        ENDIF
      ELSE IF ( CONJA ) THEN
        IF ( CONJB ) THEN
C
C         C_{IJ} = ALPHA * CONJ(A_{KI}) * CONJ(B_{JK}) + BETA * C_{IJ}
C
          DO 220 J = 1,N
          DO 220 I = 1,M
            HTMP1S = ZERO 
            HTMP1J = ZERO 
            DO 230 L = 1,K
C             Hamilton Product (IMPLIED CONJ(A) + CONJ(B))
              HTMP1S = HTMP1S + 
     $          CONJG(A(1,L,I))*CONJG(B(1,J,L)) - 
     $          A(2,L,I)*CONJG(B(2,J,L))
              HTMP1J = HTMP1J - 
     $          CONJG(A(1,L,I))*B(2,J,L) - A(2,L,I)*B(1,J,L)
  230       CONTINUE
C
            IF( BZERO ) THEN
              C(1,I,J) = ALPHA*HTMP1S
              C(2,I,J) = ALPHA*HTMP1J
            ELSE
              C(1,I,J) = ALPHA*HTMP1S + BETA * C(1,I,J)
              C(2,I,J) = ALPHA*HTMP1J + BETA * C(2,I,J)
            ENDIF
  220     CONTINUE
        ELSE
C         Implies TRANSB == 'T'
C
C         C_{IJ} = ALPHA * CONJ(A_{KI}) * B_{JK} + BETA * C_{IJ}
C
          DO 240 J = 1,N
          DO 240 I = 1,M
            HTMP1S = ZERO 
            HTMP1J = ZERO 
            DO 250 L = 1,K
C             Hamilton Product (IMPLIED CONJ(A))
              HTMP1S = HTMP1S + 
     $          CONJG(A(1,L,I))*B(1,J,L) + A(2,L,I)*CONJG(B(2,J,L))
              HTMP1J = HTMP1J + 
     $          CONJG(A(1,L,I))*B(2,J,L) - A(2,L,I)*CONJG(B(1,J,L))
  250       CONTINUE
C
            IF( BZERO ) THEN
              C(1,I,J) = ALPHA*HTMP1S
              C(2,I,J) = ALPHA*HTMP1J
            ELSE
              C(1,I,J) = ALPHA*HTMP1S + BETA * C(1,I,J)
              C(2,I,J) = ALPHA*HTMP1J + BETA * C(2,I,J)
            ENDIF
  240     CONTINUE
        ENDIF
      ELSE
C       Implies TRANSA == 'T'
        IF ( CONJB ) THEN
C
C         C_{IJ} = ALPHA * A_{KI} * CONJ(B_{JK}) + BETA * C_{IJ}
C
          DO 260 J = 1,N
          DO 260 I = 1,M
            HTMP1S = ZERO 
            HTMP1J = ZERO 
            DO 270 L = 1,K
C             Hamilton Product (IMPLIED CONJ(B))
              HTMP1S = HTMP1S + 
     $          A(1,L,I)*CONJG(B(1,J,L)) + A(2,L,I)*CONJG(B(2,J,L))
              HTMP1J = HTMP1J - 
     $          A(1,L,I)*B(2,J,L) + A(2,L,I)*B(1,J,L)
  270       CONTINUE

            IF( BZERO ) THEN
              C(1,I,J) = ALPHA*HTMP1S
              C(2,I,J) = ALPHA*HTMP1J
            ELSE
              C(1,I,J) = ALPHA*HTMP1S + BETA * C(1,I,J)
              C(2,I,J) = ALPHA*HTMP1J + BETA * C(2,I,J)
            ENDIF
  260     CONTINUE
        ELSE
C
C         C_{IJ} = ALPHA * A_{KI} * B_{JK} + BETA * C_{IJ}
C
          DO 280 J = 1,N
          DO 280 I = 1,M
            HTMP1S = ZERO 
            HTMP1J = ZERO 
            DO 290 L = 1,K
C             Hamilton Product
              HTMP1S = HTMP1S + 
     $          A(1,L,I)*B(1,J,L) - A(2,L,I)*CONJG(B(2,J,L))
              HTMP1J = HTMP1J + 
     $          A(1,L,I)*B(2,J,L) + A(2,L,I)*CONJG(B(1,J,L))
  290       CONTINUE

            IF( BZERO ) THEN
              C(1,I,J) = ALPHA*HTMP1S
              C(2,I,J) = ALPHA*HTMP1J
            ELSE
              C(1,I,J) = ALPHA*HTMP1S + BETA * C(1,I,J)
              C(2,I,J) = ALPHA*HTMP1J + BETA * C(2,I,J)
            ENDIF
  280     CONTINUE
        ENDIF
      ENDIF
      END
".
(** src/hblas/fortran/hblas3/hgemmzh.f, all 336 lines *)
Definition src_hgemmzh : string := "C 
C     This file is a part of HAXX
C     
C     Copyright (c) 2017 David Williams-Young
C     All rights reserved.
C     
C     See LICENSE.txt 
C
      Subroutine HGEMMZH(TRANSA, TRANSB, M, N, K, ALPHA, A, LDA,
     $  B, LDB, BETA, C, LDC)
C
      LOGICAL LSAME
      EXTERNAL LSAME
C
      CHARACTER TRANSA, TRANSB
      LOGICAL   NOTA, NOTB, CONJA, CONJB, AZERO, AONE,
     $          BZERO, BONE
      INTEGER*4 M,N,K, LDA,LDB,LDC, I,J,L
      Complex*16    A(2,LDA,*), B(2,LDB,*), C(2,LDC,*), ALPHA, BETA(2)
C
      COMPLEX*16    HTMP1S, HTMP1J, HTMP2S, HTMP2J
C
      COMPLEX*16    ONE, ZERO
      PARAMETER (ONE=(1.0D+0,0.0D+0), ZERO=(0.0D+0,0.0D+0))
C

      NOTA  = LSAME(TRANSA,'N')
      NOTB  = LSAME(TRANSB,'N')
      CONJA = LSAME(TRANSA,'C')
      CONJB = LSAME(TRANSB,'C')

      AZERO = ALPHA.EQ.ZERO
      AONE  = ALPHA.EQ.ONE
      BZERO = (BETA(1).EQ.ZERO).AND.(BETA(2).EQ.ZERO)
      BONE = (BETA(1).EQ.ONE).AND.(BETA(2).EQ.ZERO)

C
C     Quick Return
C
      If ( (M.EQ.0) .OR. (N.EQ.0) ) RETURN
      If ( (AZERO .OR. (K.EQ.0)) .AND. BONE ) RETURN

C
C     ALPHA.EQ.ZERO
C
      IF ( AZERO ) THEN
        IF ( BZERO ) THEN
          DO 10 J = 1,N
          DO 10 I = 1,M
            C(1,I,J) = ZERO
            C(2,I,J) = ZERO
  10      CONTINUE
        ELSE
          DO 20 J = 1,N
          DO 20 I = 1,M
            HTMP1S   = BETA(1)*C(1,I,J) - BETA(2)*CONJG(C(2,I,J))
            C(2,I,J) = BETA(1)*C(2,I,J) + BETA(2)*CONJG(C(1,I,J)) 
            C(1,I,J) = HTMP1S
  20      CONTINUE
        ENDIF
        RETURN ! Nothing more to do
      ENDIF
C
      IF ( NOTB ) THEN
        IF ( NOTA ) THEN
C
C       C_{IJ} = ALPHA * A_{IK} * B_{KJ} + BETA * C_{IJ}
C
          DO 30 J = 1,N
            IF ( BZERO ) THEN
              DO 40 I = 1,M
                C(1,I,J) = ZERO
                C(2,I,J) = ZERO
  40          CONTINUE
            ELSEIF ( .NOT. BONE ) THEN
              DO 50 I = 1,M
                HTMP1S   = BETA(1)*C(1,I,J) - BETA(2)*CONJG(C(2,I,J))
                C(2,I,J) = BETA(1)*C(2,I,J) + BETA(2)*CONJG(C(1,I,J)) 
                C(1,I,J) = HTMP1S
  50          CONTINUE
            ENDIF
C
            DO 60 L = 1,K
              HTMP1S = ALPHA * B(1,L,J) ! AE
              HTMP1J = ALPHA * B(2,L,J) ! AF
              HTMP2S = ALPHA * CONJG(B(1,L,J)) ! A CONJ(E)
              HTMP2J = ALPHA * CONJG(B(2,L,J)) ! A CONJ(F)
              DO 70 I = 1,M
C               Hamilton Product
                C(1,I,J) = C(1,I,J) + 
     $            A(1,I,L)*HTMP1S - A(2,I,L)*HTMP2J 
                C(2,I,J) = C(2,I,J) + 
     $            A(1,I,L)*HTMP1J + A(2,I,L)*HTMP2S
  70          CONTINUE
  60        CONTINUE
  30      CONTINUE
        ELSE IF ( CONJA ) THEN
C
C         C_{IJ} = ALPHA * CONJ(A_{KI}) * B_{KJ} + BETA * C_{IJ}
C
          DO 80 J = 1,N
          DO 80 I = 1,M
            HTMP1S = ZERO 
            HTMP1J = ZERO 
            DO 90 L = 1,K
C             Hamilton Product (IMPLIED CONJ(A))
              HTMP1S = HTMP1S + 
     $          CONJG(A(1,L,I))*B(1,L,J) + A(2,L,I)*CONJG(B(2,L,J))
              HTMP1J = HTMP1J + 
     $          CONJG(A(1,L,I))*B(2,L,J) - A(2,L,I)*CONJG(B(1,L,J))
  90        CONTINUE
C
            IF( BZERO ) THEN
              C(1,I,J) = ALPHA*HTMP1S
              C(2,I,J) = ALPHA*HTMP1J
            ELSE
              HTMP1S    = ALPHA*HTMP1S + 
     $          BETA(1)*C(1,I,J) - BETA(2)*CONJG(C(2,I,J))
              C(2,I,J) = ALPHA*HTMP1J + 
     $          BETA(1)*C(2,I,J) + BETA(2)*CONJG(C(1,I,J))
              C(1,I,J) = HTMP1S
            ENDIF
  80      CONTINUE
        ELSE
C         IMPLIES TRANSA == 'T'
C
C         C_{IJ} = ALPHA * A_{KI} * B_{KJ} + BETA * C_{IJ}
C
          DO 100 J = 1,N
          DO 100 I = 1,M
            HTMP1S = ZERO 
            HTMP1J = ZERO 
            DO 110 L = 1,K
C             Hamilton Product
              HTMP1S = HTMP1S + 
     $          A(1,L,I)*B(1,L,J) - A(2,L,I)*CONJG(B(2,L,J))
              HTMP1J = HTMP1J + 
     $          A(1,L,I)*B(2,L,J) + A(2,L,I)*CONJG(B(1,L,J))
  110       CONTINUE

            IF( BZERO ) THEN
              C(1,I,J) = ALPHA*HTMP1S
              C(2,I,J) = ALPHA*HTMP1J
            ELSE
              HTMP1S    = ALPHA*HTMP1S + 
     $          BETA(1)*C(1,I,J) - BETA(2)*CONJG(C(2,I,J))
              C(2,I,J) = ALPHA*HTMP1J + 
     $          BETA(1)*C(2,I,J) + BETA(2)*CONJG(C(1,I,J))
              C(1,I,J) = HTMP1S
            ENDIF
  100     CONTINUE
        ENDIF
      ELSE IF ( NOTA ) THEN
        IF ( CONJB ) THEN
C
C         C_{IJ} = ALPHA * A_{IK} * CONJ(B_{JK}) + BETA * C_{IJ}
C
          DO 120 J = 1,N
            IF ( BZERO ) THEN
              DO 130 I = 1,M
                C(1,I,J) = ZERO
                C(2,I,J) = ZERO
  130         CONTINUE
            ELSEIF ( .NOT. BONE ) THEN
              DO 140 I = 1,M
                HTMP1S   = BETA(1)*C(1,I,J) - BETA(2)*CONJG(C(2,I,J))
                C(2,I,J) = BETA(1)*C(2,I,J) + BETA(2)*CONJG(C(1,I,J)) 
                C(1,I,J) = HTMP1S
  140         CONTINUE
            ENDIF
C
            DO 150 L = 1,K
              HTMP1S = ALPHA * B(1,J,L) ! AE
              HTMP1J = -ALPHA * B(2,J,L) ! AF
              HTMP2S = ALPHA * CONJG(B(1,J,L)) ! A CONJ(E)
              HTMP2J = -ALPHA * CONJG(B(2,J,L)) ! A CONJ(F)
              DO 160 I = 1,M
C               Hamilton Product (IMPLIES CONJB)
                C(1,I,J) = C(1,I,J) + 
     $            A(1,I,L)*HTMP2S - A(2,I,L)*HTMP2J 
                C(2,I,J) = C(2,I,J) + 
     $            A(1,I,L)*HTMP1J + A(2,I,L)*HTMP1S
  160         CONTINUE
  150       CONTINUE
  120     CONTINUE
        ELSE
C         Implies TRANSB == 'T'
C
C         C_{IJ} = ALPHA * A_{IK} * B_{JK} + BETA * C_{IJ}
C
          DO 170 J = 1,N
            IF ( BZERO ) THEN
              DO 180 I = 1,M
                C(1,I,J) = ZERO
                C(2,I,J) = ZERO
  180         CONTINUE
            ELSEIF ( .NOT. BONE ) THEN
              DO 190 I = 1,M
                HTMP1S   = BETA(1)*C(1,I,J) - BETA(2)*CONJG(C(2,I,J))
                C(2,I,J) = BETA(1)*C(2,I,J) + BETA(2)*CONJG(C(1,I,J)) 
                C(1,I,J) = HTMP1S
  190         CONTINUE
            ENDIF
C
            DO 200 L = 1,K
              HTMP1S = ALPHA * B(1,J,L) ! AE
              HTMP1J = ALPHA * B(2,J,L) ! AF
              HTMP2S = ALPHA * CONJG(B(1,J,L)) ! A CONJ(E)
              HTMP2J = ALPHA * CONJG(B(2,J,L)) ! A CONJ(F)
              DO 210 I = 1,M
C               Hamilton Product
                C(1,I,J) = C(1,I,J) + 
     $            A(1,I,L)*HTMP1S - A(2,I,L)*HTMP2J 
                C(2,I,J) = C(2,I,J) + 
     $            A(1,I,L)*HTMP1J + A(2,I,L)*HTMP2S
  210         CONTINUE
  200       CONTINUE
  170     CONTINUE
        ENDIF
      ELSE IF ( CONJA ) THEN
        IF ( CONJB ) THEN
C
C         C_{IJ} = ALPHA * CONJ(A_{KI}) * CONJ(B_{JK}) + BETA * C_{IJ}
C
          DO 220 J = 1,N
          DO 220 I = 1,M
            HTMP1S = ZERO 
            HTMP1J = ZERO 
            DO 230 L = 1,K
C             Hamilton Product (IMPLIED CONJ(A) + CONJ(B))
              HTMP1S = HTMP1S + 
     $          CONJG(A(1,L,I))*CONJG(B(1,J,L)) - 
     $          A(2,L,I)*CONJG(B(2,J,L))
              HTMP1J = HTMP1J - 
     $          CONJG(A(1,L,I))*B(2,J,L) - A(2,L,I)*B(1,J,L)
  230       CONTINUE
C
            IF( BZERO ) THEN
              C(1,I,J) = ALPHA*HTMP1S
              C(2,I,J) = ALPHA*HTMP1J
            ELSE
              HTMP1S    = ALPHA*HTMP1S + 
     $          BETA(1)*C(1,I,J) - BETA(2)*CONJG(C(2,I,J))
              C(2,I,J) = ALPHA*HTMP1J + 
     $          BETA(1)*C(2,I,J) + BETA(2)*CONJG(C(1,I,J))
              C(1,I,J) = HTMP1S
            ENDIF
  220     CONTINUE
        ELSE
C         Implies TRANSB == 'T'
C
C         C_{IJ} = ALPHA * CONJ(A_{KI}) * B_{JK} + BETA * C_{IJ}
C
          DO 240 J = 1,N
          DO 240 I = 1,M
            HTMP1S = ZERO 
            HTMP1J = ZERO 
            DO 250 L = 1,K
C             Hamilton Product (IMPLIED CONJ(A))
              HTMP1S = HTMP1S + 
     $          CONJG(A(1,L,I))*B(1,J,L) + A(2,L,I)*CONJG(B(2,J,L))
              HTMP1J = HTMP1J + 
     $          CONJG(A(1,L,I))*B(2,J,L) - A(2,L,I)*CONJG(B(1,J,L))
  250       CONTINUE
C
            IF( BZERO ) THEN
              C(1,I,J) = ALPHA*HTMP1S
              C(2,I,J) = ALPHA*HTMP1J
            ELSE
              HTMP1S    = ALPHA*HTMP1S + 
     $          BETA(1)*C(1,I,J) - BETA(2)*CONJG(C(2,I,J))
              C(2,I,J) = ALPHA*HTMP1J + 
     $          BETA(1)*C(2,I,J) + BETA(2)*CONJG(C(1,I,J))
              C(1,I,J) = HTMP1S
            ENDIF
  240     CONTINUE
        ENDIF
      ELSE
C       Implies TRANSA == 'T'
        IF ( CONJB ) THEN
C
C         C_{IJ} = ALPHA * A_{KI} * CONJ(B_{JK}) + BETA * C_{IJ}
C
          DO 260 J = 1,N
          DO 260 I = 1,M
            HTMP1S = ZERO 
            HTMP1J = ZERO 
            DO 270 L = 1,K
C             Hamilton Product (IMPLIED CONJ(B))
              HTMP1S = HTMP1S + 
     $          A(1,L,I)*CONJG(B(1,J,L)) + A(2,L,I)*CONJG(B(2,J,L))
              HTMP1J = HTMP1J - 
     $          A(1,L,I)*B(2,J,L) + A(2,L,I)*B(1,J,L)
  270       CONTINUE

            IF( BZERO ) THEN
              C(1,I,J) = ALPHA*HTMP1S
              C(2,I,J) = ALPHA*HTMP1J
            ELSE
              HTMP1S    = ALPHA*HTMP1S + 
     $          BETA(1)*C(1,I,J) - BETA(2)*CONJG(C(2,I,J))
              C(2,I,J) = ALPHA*HTMP1J + 
     $          BETA(1)*C(2,I,J) + BETA(2)*CONJG(C(1,I,J))
              C(1,I,J) = HTMP1S
            ENDIF
  260     CONTINUE
        ELSE
C
C         C_{IJ} = ALPHA * A_{KI} * B_{JK} + BETA * C_{IJ}
C
          DO 280 J = 1,N
          DO 280 I = 1,M
            HTMP1S = ZERO 
            HTMP1J = ZERO 
            DO 290 L = 1,K
C             Hamilton Product
              HTMP1S = HTMP1S + 
     $          A(1,L,I)*B(1,J,L) - A(2,L,I)*CONJG(B(2,J,L))
              HTMP1J = HTMP1J + 
     $          A(1,L,I)*B(2,J,L) + A(2,L,I)*CONJG(B(1,J,L))
  290       CONTINUE

            IF( BZERO ) THEN
              C(1,I,J) = ALPHA*HTMP1S
              C(2,I,J) = ALPHA*HTMP1J
            ELSE
              HTMP1S    = ALPHA*HTMP1S + 
     $          BETA(1)*C(1,I,J) - BETA(2)*CONJG(C(2,I,J))
              C(2,I,J) = ALPHA*HTMP1J + 
     $          BETA(1)*C(2,I,J) + BETA(2)*CONJG(C(1,I,J))
              C(1,I,J) = HTMP1S
            ENDIF
  280     CONTINUE
        ENDIF
      ENDIF
      END
".
(** src/hblas/fortran/hblas3/hgemmzz.f, all 314 lines *)
Definition src_hgemmzz : string := "C 
C     This file is a part of HAXX
C     
C     Copyright (c) 2017 David Williams-Young
C     All rights reserved.
C     
C     See LICENSE.txt 
C
      Subroutine HGEMMZZ(TRANSA, TRANSB, M, N, K, ALPHA, A, LDA,
     $  B, LDB, BETA, C, LDC)
C
      LOGICAL LSAME
      EXTERNAL LSAME
C
      CHARACTER TRANSA, TRANSB
      LOGICAL   NOTA, NOTB, CONJA, CONJB, AZERO, AONE,
     $          BZERO, BONE
      INTEGER*4 M,N,K, LDA,LDB,LDC, I,J,L
      Complex*16    A(2,LDA,*), B(2,LDB,*), C(2,LDC,*), ALPHA, BETA
C
      COMPLEX*16    HTMP1S, HTMP1J, HTMP2S, HTMP2J
C
      COMPLEX*16    ONE, ZERO
      PARAMETER (ONE=(1.0D+0,0.0D+0), ZERO=(0.0D+0,0.0D+0))
C

      NOTA  = LSAME(TRANSA,'N')
      NOTB  = LSAME(TRANSB,'N')
      CONJA = LSAME(TRANSA,'C')
      CONJB = LSAME(TRANSB,'C')

      AZERO = ALPHA.EQ.ZERO
      AONE  = ALPHA.EQ.ONE
      BZERO = BETA.EQ.ZERO
      BONE  = BETA.EQ.ONE

C
C     Quick Return
C
      If ( (M.EQ.0) .OR. (N.EQ.0) ) RETURN
      If ( (AZERO .OR. (K.EQ.0)) .AND. BONE ) RETURN

C
C     ALPHA.EQ.ZERO
C
      IF ( AZERO ) THEN
        IF ( BZERO ) THEN
          DO 10 J = 1,N
          DO 10 I = 1,M
            C(1,I,J) = ZERO
            C(2,I,J) = ZERO
  10      CONTINUE
        ELSE
          DO 20 J = 1,N
          DO 20 I = 1,M
            C(1,I,J) = BETA * C(1,I,J) 
            C(2,I,J) = BETA * C(2,I,J) 
  20      CONTINUE
        ENDIF
        RETURN ! Nothing more to do
      ENDIF
C
      IF ( NOTB ) THEN
        IF ( NOTA ) THEN
C
C       C_{IJ} = ALPHA * A_{IK} * B_{KJ} + BETA * C_{IJ}
C
          DO 30 J = 1,N
            IF ( BZERO ) THEN
              DO 40 I = 1,M
                C(1,I,J) = ZERO
                C(2,I,J) = ZERO
  40          CONTINUE
            ELSEIF ( .NOT. BONE ) THEN
              DO 50 I = 1,M
                C(1,I,J) = BETA * C(1,I,J) 
                C(2,I,J) = BETA * C(2,I,J) 
  50          CONTINUE
            ENDIF
C
            DO 60 L = 1,K
              HTMP1S = ALPHA * B(1,L,J) ! AE
              HTMP1J = ALPHA * B(2,L,J) ! AF
              HTMP2S = ALPHA * CONJG(B(1,L,J)) ! A CONJ(E)
              HTMP2J = ALPHA * CONJG(B(2,L,J)) ! A CONJ(F)
              DO 70 I = 1,M
C               Hamilton Product
                C(1,I,J) = C(1,I,J) + 
     $            A(1,I,L)*HTMP1S - A(2,I,L)*HTMP2J 
                C(2,I,J) = C(2,I,J) + 
     $            A(1,I,L)*HTMP1J + A(2,I,L)*HTMP2S
  70          CONTINUE
  60        CONTINUE
  30      CONTINUE
        ELSE IF ( CONJA ) THEN
C
C         C_{IJ} = ALPHA * CONJ(A_{KI}) * B_{KJ} + BETA * C_{IJ}
C
          DO 80 J = 1,N
          DO 80 I = 1,M
            HTMP1S = ZERO 
            HTMP1J = ZERO 
            DO 90 L = 1,K
C             Hamilton Product (IMPLIED CONJ(A))
              HTMP1S = HTMP1S + 
     $          CONJG(A(1,L,I))*B(1,L,J) + A(2,L,I)*CONJG(B(2,L,J))
              HTMP1J = HTMP1J + 
     $          CONJG(A(1,L,I))*B(2,L,J) - A(2,L,I)*CONJG(B(1,L,J))
  90        CONTINUE
C
            IF( BZERO ) THEN
              C(1,I,J) = ALPHA*HTMP1S
              C(2,I,J) = ALPHA*HTMP1J
            ELSE
              C(1,I,J) = ALPHA*HTMP1S + BETA * C(1,I,J)
              C(2,I,J) = ALPHA*HTMP1J + BETA * C(2,I,J)
            ENDIF
  80      CONTINUE
        ELSE
C         IMPLIES TRANSA == 'T'
C
C         C_{IJ} = ALPHA * A_{KI} * B_{KJ} + BETA * C_{IJ}
C
          DO 100 J = 1,N
          DO 100 I = 1,M
            HTMP1S = ZERO 
            HTMP1J = ZERO 
            DO 110 L = 1,K
C             Hamilton Product
              HTMP1S = HTMP1S + 
     $          A(1,L,I)*B(1,L,J) - A(2,L,I)*CONJG(B(2,L,J))
              HTMP1J = HTMP1J + 
     $          A(1,L,I)*B(2,L,J) + A(2,L,I)*CONJG(B(1,L,J))
  110       CONTINUE

            IF( BZERO ) THEN
              C(1,I,J) = ALPHA*HTMP1S
              C(2,I,J) = ALPHA*HTMP1J
            ELSE
              C(1,I,J) = ALPHA*HTMP1S + BETA * C(1,I,J)
              C(2,I,J) = ALPHA*HTMP1J + BETA * C(2,I,J)
            ENDIF
  100     CONTINUE
        ENDIF
      ELSE IF ( NOTA ) THEN
        IF ( CONJB ) THEN
C
C         C_{IJ} = ALPHA * A_{IK} * CONJ(B_{JK}) + BETA * C_{IJ}
C
          DO 120 J = 1,N
            IF ( BZERO ) THEN
              DO 130 I = 1,M
                C(1,I,J) = ZERO
                C(2,I,J) = ZERO
  130         CONTINUE
            ELSEIF ( .NOT. BONE ) THEN
              DO 140 I = 1,M
                C(1,I,J) = BETA * C(1,I,J) 
                C(2,I,J) = BETA * C(2,I,J) 
  140         CONTINUE
            ENDIF
C
            DO 150 L = 1,K
              HTMP1S = ALPHA * B(1,J,L) ! AE
              HTMP1J = -ALPHA * B(2,J,L) ! AF
              HTMP2S = ALPHA * CONJG(B(1,J,L)) ! A CONJ(E)
              HTMP2J = -ALPHA * CONJG(B(2,J,L)) ! A CONJ(F)
              DO 160 I = 1,M
C               Hamilton Product (IMPLIES CONJB)
                C(1,I,J) = C(1,I,J) + 
     $            A(1,I,L)*HTMP2S - A(2,I,L)*HTMP2J 
                C(2,I,J) = C(2,I,J) + 
     $            A(1,I,L)*HTMP1J + A(2,I,L)*HTMP1S
  160         CONTINUE
  150       CONTINUE
  120     CONTINUE
        ELSE
C         Implies TRANSB == 'T'
C
C         C_{IJ} = ALPHA * A_{IK} * B_{JK} + BETA * C_{IJ}
C
          DO 170 J = 1,N
            IF ( BZERO ) THEN
              DO 180 I = 1,M
                C(1,I,J) = ZERO
                C(2,I,J) = ZERO
  180         CONTINUE
            ELSEIF ( .NOT. BONE ) THEN
              DO 190 I = 1,M
                C(1,I,J) = BETA * C(1,I,J) 
                C(2,I,J) = BETA * C(2,I,J) 
  190         CONTINUE
            ENDIF
C
            DO 200 L = 1,K
              HTMP1S = ALPHA * B(1,J,L) ! AE
              HTMP1J = ALPHA * B(2,J,L) ! AF
              HTMP2S = ALPHA * CONJG(B(1,J,L)) ! A CONJ(E)
              HTMP2J = ALPHA * CONJG(B(2,J,L)) ! A CONJ(F)
              DO 210 I = 1,M
C               Hamilton Product
                C(1,I,J) = C(1,I,J) + 
     $            A(1,I,L)*HTMP1S - A(2,I,L)*HTMP2J 
                C(2,I,J) = C(2,I,J) + 
     $            A(1,I,L)*HTMP1J + A(2,I,L)*HTMP2S
  210         CONTINUE
  200       CONTINUE
  170     CONTINUE
        ENDIF
      ELSE IF ( CONJA ) THEN
        IF ( CONJB ) THEN
C
C         C_{IJ} = ALPHA * CONJ(A_{KI}) * CONJ(B_{JK}) + BETA * C_{IJ}
C
          DO 220 J = 1,N
          DO 220 I = 1,M
            HTMP1S = ZERO 
            HTMP1J = ZERO 
            DO 230 L = 1,K
C             Hamilton Product (IMPLIED CONJ(A) + CONJ(B))
              HTMP1S = HTMP1S + 
     $          CONJG(A(1,L,I))*CONJG(B(1,J,L)) - 
     $          A(2,L,I)*CONJG(B(2,J,L))
              HTMP1J = HTMP1J - 
     $          CONJG(A(1,L,I))*B(2,J,L) - A(2,L,I)*B(1,J,L)
  230       CONTINUE
C
            IF( BZERO ) THEN
              C(1,I,J) = ALPHA*HTMP1S
              C(2,I,J) = ALPHA*HTMP1J
            ELSE
              C(1,I,J) = ALPHA*HTMP1S + BETA * C(1,I,J)
              C(2,I,J) = ALPHA*HTMP1J + BETA * C(2,I,J)
            ENDIF
  220     CONTINUE
        ELSE
C         Implies TRANSB == 'T'
C
C         C_{IJ} = ALPHA * CONJ(A_{KI}) * B_{JK} + BETA * C_{IJ}
C
          DO 240 J = 1,N
          DO 240 I = 1,M
            HTMP1S = ZERO 
            HTMP1J = ZERO 
            DO 250 L = 1,K
C             Hamilton Product (IMPLIED CONJ(A))
              HTMP1S = HTMP1S + 
     $          CONJG(A(1,L,I))*B(1,J,L) + A(2,L,I)*CONJG(B(2,J,L))
              HTMP1J = HTMP1J + 
     $          CONJG(A(1,L,I))*B(2,J,L) - A(2,L,I)*CONJG(B(1,J,L))
  250       CONTINUE
C
            IF( BZERO ) THEN
              C(1,I,J) = ALPHA*HTMP1S
              C(2,I,J) = ALPHA*HTMP1J
            ELSE
              C(1,I,J) = ALPHA*HTMP1S + BETA * C(1,I,J)
              C(2,I,J) = ALPHA*HTMP1J + BETA * C(2,I,J)
            ENDIF
  240     CONTINUE
        ENDIF
      ELSE
C       Implies TRANSA == 'T'
        IF ( CONJB ) THEN
C
C         C_{IJ} = ALPHA * A_{KI} * CONJ(B_{JK}) + BETA * C_{IJ}
C
          DO 260 J = 1,N
          DO 260 I = 1,M
            HTMP1S = ZERO 
            HTMP1J = ZERO 
            DO 270 L = 1,K
C             Hamilton Product (IMPLIED CONJ(B))
              HTMP1S = HTMP1S + 
     $          A(1,L,I)*CONJG(B(1,J,L)) + A(2,L,I)*CONJG(B(2,J,L))
              HTMP1J = HTMP1J - 
     $          A(1,L,I)*B(2,J,L) + A(2,L,I)*B(1,J,L)
  270       CONTINUE

            IF( BZERO ) THEN
              C(1,I,J) = ALPHA*HTMP1S
              C(2,I,J) = ALPHA*HTMP1J
            ELSE
              C(1,I,J) = ALPHA*HTMP1S + BETA * C(1,I,J)
              C(2,I,J) = ALPHA*HTMP1J + BETA * C(2,I,J)
            ENDIF
  260     CONTINUE
        ELSE
C
C         C_{IJ} = ALPHA * A_{KI} * B_{JK} + BETA * C_{IJ}
C
          DO 280 J = 1,N
          DO 280 I = 1,M
            HTMP1S = ZERO 
            HTMP1J = ZERO 
            DO 290 L = 1,K
C             Hamilton Product
              HTMP1S = HTMP1S + 
     $          A(1,L,I)*B(1,J,L) - A(2,L,I)*CONJG(B(2,J,L))
              HTMP1J = HTMP1J + 
     $          A(1,L,I)*B(2,J,L) + A(2,L,I)*CONJG(B(1,J,L))
  290       CONTINUE

            IF( BZERO ) THEN
              C(1,I,J) = ALPHA*HTMP1S
              C(2,I,J) = ALPHA*HTMP1J
            ELSE
              C(1,I,J) = ALPHA*HTMP1S + BETA * C(1,I,J)
              C(2,I,J) = ALPHA*HTMP1J + BETA * C(2,I,J)
            ENDIF
  280     CONTINUE
        ENDIF
      ENDIF
      END
".
