(** Source text, copied byte for byte: src/hblas/fortran/hblas2/*.f (a double quote would be doubled; there is none). *)
From Coq Require Import String.
Local Open Scope string_scope.
(** src/hblas/fortran/hblas2/hgemvdd.f, all 176 lines *)
Definition src_hgemvdd : string := "C 
C     This file is a part of HAXX
C     
C     Copyright (c) 2017 David Williams-Young
C     All rights reserved.
C     
C     See LICENSE.txt 
C
      Subroutine HGEMVDD(TRANS, M, N, ALPHA, A, LDA, X, INCX, BETA,
     $  Y, INCY)
C
      LOGICAL LSAME
      EXTERNAL LSAME
C
      CHARACTER TRANS
      LOGICAL   NOCONJ, AZERO,AONE,BZERO,BONE
      INTEGER*4 M,N, LDA,INCX,INCY, LENX,LENY, I,J,IY,JX,IX,JY, KX,KY
      REAL*8    ALPHA,BETA
      COMPLEX*16    A(2,LDA,*), X(2,*), Y(2,*)
C
      COMPLEX*16    HTMPS, HTMPJ
C
      COMPLEX*16    ONE, ZERO
      PARAMETER (ONE=(1.0D+0,0.0D+0), ZERO=(0.0D+0,0.0D+0))
C
      IF ( (M.EQ.0) .OR. (N.EQ.0) .OR. 
     $     ( (ALPHA.EQ.ZERO) .AND. (BETA.EQ.ONE) ) ) RETURN
C
      NOCONJ = LSAME('T',TRANS)
      IF ( LSAME('N',TRANS) ) THEN
        LENX = N
        LENY = M
      ELSE
        LENX = M
        LENY = N
      ENDIF

      AZERO = ALPHA.EQ.ZERO
      AONE  = ALPHA.EQ.ONE
      BZERO = BETA.EQ.ZERO
      BONE  = BETA.EQ.ONE
C
      IF ( INCX.GT.0 ) THEN
        KX = 1
      ELSE
        KX = 1 - (LENX-1)*INCX
      ENDIF

      IF ( INCY.GT.0 ) THEN
        KY = 1
      ELSE
        KY = 1 - (LENY-1)*INCY
      ENDIF
C

      IF ( .NOT.BONE ) THEN
        IF ( INCY.EQ.1 ) THEN
          IF ( BZERO ) THEN
            DO 10 I = 1,LENY
              Y(1,I) = ZERO
              Y(2,I) = ZERO
  10        CONTINUE
          ELSE
            DO 20 I = 1,LENY
              Y(1,I) = BETA * Y(1,I) 
              Y(2,I) = BETA * Y(2,I) 
  20        CONTINUE
          ENDIF
        ELSE
          IY = KY
          IF ( BZERO ) THEN
            DO 30 I = 1,LENY
              Y(1,IY) = ZERO
              Y(2,IY) = ZERO
              IY = IY + INCY
  30        CONTINUE
          ELSE
            DO 40 I = 1,LENY
              Y(1,IY) = BETA * Y(1,IY) 
              Y(2,IY) = BETA * Y(2,IY) 
              IY = IY + INCY
  40        CONTINUE
          ENDIF
        ENDIF
      ENDIF
C
      IF ( AZERO )  RETURN ! Nothing left to do
C
      IF ( LSAME(TRANS,'N') ) THEN
        JX = KX
        IF ( INCY.EQ.1 ) THEN
          DO 60 J = 1,N
            HTMPS = ALPHA * X(1,JX)
            HTMPJ = ALPHA * X(2,JX)
            Do 50 I = 1,M
C             Hamilton Product
              Y(1,I) = Y(1,I) + 
     $          A(1,I,J)*HTMPS - A(2,I,J)*CONJG(HTMPJ)
              Y(2,I) = Y(2,I) + 
     $          A(1,I,J)*HTMPJ + A(2,I,J)*CONJG(HTMPS)
  50        CONTINUE 
            JX = JX + INCX
  60      CONTINUE
        ELSE
          DO 80 J = 1,N
            HTMPS = ALPHA * X(1,JX)
            HTMPJ = ALPHA * X(2,JX)
            IY = KY
            Do 70 I = 1,M
C             Hamilton Product
              Y(1,IY) = Y(1,IY) + 
     $          A(1,I,J)*HTMPS - A(2,I,J)*CONJG(HTMPJ)
              Y(2,IY) = Y(2,IY) + 
     $          A(1,I,J)*HTMPJ + A(2,I,J)*CONJG(HTMPS)
              IY = IY + INCY
  70        CONTINUE 
            JX = JX + INCX
  80      CONTINUE
        ENDIF
      ELSE
        JY = KY
        IF ( INCX.EQ.1 ) THEN
          DO 110 J = 1,N
            HTMPS = ZERO
            HTMPJ = ZERO
            IF ( NOCONJ ) THEN
              DO 90 I = 1,M
C             Hamilton Product
                HTMPS = HTMPS + A(1,I,J)*X(1,I) - A(2,I,J)*CONJG(X(2,I))
                HTMPJ = HTMPJ + A(1,I,J)*X(2,I) + A(2,I,J)*CONJG(X(1,I))
  90          CONTINUE
            ELSE
              DO 100 I = 1,M
C               Hamilton Product (IMPLIED CONJ(A))
                HTMPS = HTMPS + 
     $            CONJG(A(1,I,J))*X(1,I) + A(2,I,J)*CONJG(X(2,I))
                HTMPJ = HTMPJ + 
     $            CONJG(A(1,I,J))*X(2,I) - A(2,I,J)*CONJG(X(1,I))
  100         CONTINUE
            ENDIF
            Y(1,JY) = Y(1,JY) + ALPHA * HTMPS
            Y(2,JY) = Y(2,JY) + ALPHA * HTMPJ
            JY = JY + INCY
  110     CONTINUE
        ELSE
          DO 140 J = 1,N
            HTMPS = ZERO
            HTMPJ = ZERO
            IX = KX
            IF ( NOCONJ ) THEN
              DO 120 I = 1,M
C             Hamilton Product
                HTMPS = HTMPS + 
     $            A(1,I,J)*X(1,IX) - A(2,I,J)*CONJG(X(2,IX))
                HTMPJ = HTMPJ + 
     $            A(1,I,J)*X(2,IX) + A(2,I,J)*CONJG(X(1,IX))
                IX = IX + INCX
  120         CONTINUE
            ELSE
              DO 130 I = 1,M
C               Hamilton Product (IMPLIED CONJ(A))
                HTMPS = HTMPS + 
     $            CONJG(A(1,I,J))*X(1,IX) + A(2,I,J)*CONJG(X(2,IX))
                HTMPJ = HTMPJ + 
     $            CONJG(A(1,I,J))*X(2,IX) - A(2,I,J)*CONJG(X(1,IX))
                IX = IX + INCX
  130         CONTINUE
            ENDIF
            Y(1,JY) = Y(1,JY) + ALPHA * HTMPS
            Y(2,JY) = Y(2,JY) + ALPHA * HTMPJ
            JY = JY + INCY
  140     CONTINUE
        ENDIF
      ENDIF
C
      END
".
(** src/hblas/fortran/hblas2/hgemvdh.f, all 178 lines *)
Definition src_hgemvdh : string := "C 
C     This file is a part of HAXX
C     
C     Copyright (c) 2017 David Williams-Young
C     All rights reserved.
C     
C     See LICENSE.txt 
C
      Subroutine HGEMVDH(TRANS, M, N, ALPHA, A, LDA, X, INCX, BETA,
     $  Y, INCY)
C
      LOGICAL LSAME
      EXTERNAL LSAME
C
      CHARACTER TRANS
      LOGICAL   NOCONJ, AZERO,AONE,BZERO,BONE
      INTEGER*4 M,N, LDA,INCX,INCY, LENX,LENY, I,J,IY,JX,IX,JY, KX,KY
      REAL*8    ALPHA
      COMPLEX*16    A(2,LDA,*), X(2,*), Y(2,*), BETA(2)
C
      COMPLEX*16    HTMPS, HTMPJ
C
      COMPLEX*16    ONE, ZERO
      PARAMETER (ONE=(1.0D+0,0.0D+0), ZERO=(0.0D+0,0.0D+0))
C
C
      NOCONJ = LSAME('T',TRANS)
      IF ( LSAME('T',TRANS) ) THEN
        LENX = N
        LENY = M
      ELSE
        LENX = M
        LENY = N
      ENDIF

      AZERO = ALPHA.EQ.ZERO
      AONE  = ALPHA.EQ.ONE
      BZERO = (BETA(1).EQ.ZERO) .AND. (BETA(2).EQ.ZERO)
      BONE  = (BETA(1).EQ.ONE)  .AND. (BETA(2).EQ.ZERO)
C
      IF ( (M.EQ.0) .OR. (N.EQ.0) .OR. 
     $     ( (AZERO) .AND. (BONE) ) ) RETURN
C
      IF ( INCX.GT.0 ) THEN
        KX = 1
      ELSE
        KX = 1 - (LENX-1)*INCX
      ENDIF

      IF ( INCY.GT.0 ) THEN
        KY = 1
      ELSE
        KY = 1 - (LENY-1)*INCY
      ENDIF
C

      IF ( .NOT.BONE ) THEN
        IF ( INCY.EQ.1 ) THEN
          IF ( BZERO ) THEN
            DO 10 I = 1,LENY
              Y(1,I) = ZERO
              Y(2,I) = ZERO
  10        CONTINUE
          ELSE
            DO 20 I = 1,LENY
              HTMPS = BETA(1) * Y(1,I) - BETA(2) * CONJG(Y(2,I)) 
              Y(2,I) = BETA(1) * Y(2,I) + BETA(2) * CONJG(Y(1,I))
              Y(1,I) = HTMPS
  20        CONTINUE
          ENDIF
        ELSE
          IY = KY
          IF ( BZERO ) THEN
            DO 30 I = 1,LENY
              Y(1,IY) = ZERO
              Y(2,IY) = ZERO
              IY = IY + INCY
  30        CONTINUE
          ELSE
            DO 40 I = 1,LENY
              HTMPS = BETA(1) * Y(1,IY) - BETA(2) * CONJG(Y(2,IY)) 
              Y(2,IY) = BETA(1) * Y(2,IY) + BETA(2) * CONJG(Y(1,IY))
              Y(1,IY) = HTMPS
  40        CONTINUE
          ENDIF
        ENDIF
      ENDIF
C
      IF ( AZERO )  RETURN ! Nothing left to do
C
      IF ( LSAME(TRANS,'N') ) THEN
        JX = KX
        IF ( INCY.EQ.1 ) THEN
          DO 60 J = 1,N
            HTMPS = ALPHA * X(1,JX)
            HTMPJ = ALPHA * X(2,JX)
            Do 50 I = 1,M
C             Hamilton Product
              Y(1,I) = Y(1,I) + 
     $          A(1,I,J)*HTMPS - A(2,I,J)*CONJG(HTMPJ)
              Y(2,I) = Y(2,I) + 
     $          A(1,I,J)*HTMPJ + A(2,I,J)*CONJG(HTMPS)
  50        CONTINUE 
            JX = JX + INCX
  60      CONTINUE
        ELSE
          DO 80 J = 1,N
            HTMPS = ALPHA * X(1,JX)
            HTMPJ = ALPHA * X(2,JX)
            IY = KY
            Do 70 I = 1,M
C             Hamilton Product
              Y(1,IY) = Y(1,IY) + 
     $          A(1,I,J)*HTMPS - A(2,I,J)*CONJG(HTMPJ)
              Y(2,IY) = Y(2,IY) + 
     $          A(1,I,J)*HTMPJ + A(2,I,J)*CONJG(HTMPS)
              IY = IY + INCY
  70        CONTINUE 
            JX = JX + INCX
  80      CONTINUE
        ENDIF
      ELSE
        JY = KY
        IF ( INCX.EQ.1 ) THEN
          DO 110 J = 1,N
            HTMPS = ZERO
            HTMPJ = ZERO
            IF ( NOCONJ ) THEN
              DO 90 I = 1,M
C             Hamilton Product
                HTMPS = HTMPS + A(1,I,J)*X(1,I) - A(2,I,J)*CONJG(X(2,I))
                HTMPJ = HTMPJ + A(1,I,J)*X(2,I) + A(2,I,J)*CONJG(X(1,I))
  90          CONTINUE
            ELSE
              DO 100 I = 1,M
C               Hamilton Product (IMPLIED CONJ(A))
                HTMPS = HTMPS + 
     $            CONJG(A(1,I,J))*X(1,I) + A(2,I,J)*CONJG(X(2,I))
                HTMPJ = HTMPJ + 
     $            CONJG(A(1,I,J))*X(2,I) - A(2,I,J)*CONJG(X(1,I))
  100         CONTINUE
            ENDIF
            Y(1,JY) = Y(1,JY) + ALPHA * HTMPS
            Y(2,JY) = Y(2,JY) + ALPHA * HTMPJ
            JY = JY + INCY
  110     CONTINUE
        ELSE
          DO 140 J = 1,N
            HTMPS = ZERO
            HTMPJ = ZERO
            IX = KX
            IF ( NOCONJ ) THEN
              DO 120 I = 1,M
C             Hamilton Product
                HTMPS = HTMPS + 
     $            A(1,I,J)*X(1,IX) - A(2,I,J)*CONJG(X(2,IX))
                HTMPJ = HTMPJ + 
     $            A(1,I,J)*X(2,IX) + A(2,I,J)*CONJG(X(1,IX))
                IX = IX + INCX
  120         CONTINUE
            ELSE
              DO 130 I = 1,M
C               Hamilton Product (IMPLIED CONJ(A))
                HTMPS = HTMPS + 
     $            CONJG(A(1,I,J))*X(1,IX) + A(2,I,J)*CONJG(X(2,IX))
                HTMPJ = HTMPJ + 
     $            CONJG(A(1,I,J))*X(2,IX) - A(2,I,J)*CONJG(X(1,IX))
                IX = IX + INCX
  130         CONTINUE
            ENDIF
            Y(1,JY) = Y(1,JY) + ALPHA * HTMPS
            Y(2,JY) = Y(2,JY) + ALPHA * HTMPJ
            JY = JY + INCY
  140     CONTINUE
        ENDIF
      ENDIF
C
      END
".
(** src/hblas/fortran/hblas2/hgemvdz.f, all 176 lines *)
Definition src_hgemvdz : string := "C 
C     This file is a part of HAXX
C     
C     Copyright (c) 2017 David Williams-Young
C     All rights reserved.
C     
C     See LICENSE.txt 
C
      Subroutine HGEMVDZ(TRANS, M, N, ALPHA, A, LDA, X, INCX, BETA,
     $  Y, INCY)
C
      LOGICAL LSAME
      EXTERNAL LSAME
C
      CHARACTER TRANS
      LOGICAL   NOCONJ, AZERO,AONE,BZERO,BONE
      INTEGER*4 M,N, LDA,INCX,INCY, LENX,LENY, I,J,IY,JX,IX,JY, KX,KY
      REAL*8    ALPHA
      COMPLEX*16    A(2,LDA,*), X(2,*), Y(2,*), BETA
C
      COMPLEX*16    HTMPS, HTMPJ
C
      COMPLEX*16    ONE, ZERO
      PARAMETER (ONE=(1.0D+0,0.0D+0), ZERO=(0.0D+0,0.0D+0))
C
      IF ( (M.EQ.0) .OR. (N.EQ.0) .OR. 
     $     ( (ALPHA.EQ.ZERO) .AND. (BETA.EQ.ONE) ) ) RETURN
C
      NOCONJ = LSAME('T',TRANS)
      IF ( LSAME('T',TRANS) ) THEN
        LENX = N
        LENY = M
      ELSE
        LENX = M
        LENY = N
      ENDIF

      AZERO = ALPHA.EQ.ZERO
      AONE  = ALPHA.EQ.ONE
      BZERO = BETA.EQ.ZERO
      BONE  = BETA.EQ.ONE
C
      IF ( INCX.GT.0 ) THEN
        KX = 1
      ELSE
        KX = 1 - (LENX-1)*INCX
      ENDIF

      IF ( INCY.GT.0 ) THEN
        KY = 1
      ELSE
        KY = 1 - (LENY-1)*INCY
      ENDIF
C

      IF ( .NOT.BONE ) THEN
        IF ( INCY.EQ.1 ) THEN
          IF ( BZERO ) THEN
            DO 10 I = 1,LENY
              Y(1,I) = ZERO
              Y(2,I) = ZERO
  10        CONTINUE
          ELSE
            DO 20 I = 1,LENY
              Y(1,I) = BETA * Y(1,I) 
              Y(2,I) = BETA * Y(2,I) 
  20        CONTINUE
          ENDIF
        ELSE
          IY = KY
          IF ( BZERO ) THEN
            DO 30 I = 1,LENY
              Y(1,IY) = ZERO
              Y(2,IY) = ZERO
              IY = IY + INCY
  30        CONTINUE
          ELSE
            DO 40 I = 1,LENY
              Y(1,IY) = BETA * Y(1,IY) 
              Y(2,IY) = BETA * Y(2,IY) 
              IY = IY + INCY
  40        CONTINUE
          ENDIF
        ENDIF
      ENDIF
C
      IF ( AZERO )  RETURN ! Nothing left to do
C
      IF ( LSAME(TRANS,'N') ) THEN
        JX = KX
        IF ( INCY.EQ.1 ) THEN
          DO 60 J = 1,N
            HTMPS = ALPHA * X(1,JX)
            HTMPJ = ALPHA * X(2,JX)
            Do 50 I = 1,M
C             Hamilton Product
              Y(1,I) = Y(1,I) + 
     $          A(1,I,J)*HTMPS - A(2,I,J)*CONJG(HTMPJ)
              Y(2,I) = Y(2,I) + 
     $          A(1,I,J)*HTMPJ + A(2,I,J)*CONJG(HTMPS)
  50        CONTINUE 
            JX = JX + INCX
  60      CONTINUE
        ELSE
          DO 80 J = 1,N
            HTMPS = ALPHA * X(1,JX)
            HTMPJ = ALPHA * X(2,JX)
            IY = KY
            Do 70 I = 1,M
C             Hamilton Product
              Y(1,IY) = Y(1,IY) + 
     $          A(1,I,J)*HTMPS - A(2,I,J)*CONJG(HTMPJ)
              Y(2,IY) = Y(2,IY) + 
     $          A(1,I,J)*HTMPJ + A(2,I,J)*CONJG(HTMPS)
              IY = IY + INCY
  70        CONTINUE 
            JX = JX + INCX
  80      CONTINUE
        ENDIF
      ELSE
        JY = KY
        IF ( INCX.EQ.1 ) THEN
          DO 110 J = 1,N
            HTMPS = ZERO
            HTMPJ = ZERO
            IF ( NOCONJ ) THEN
              DO 90 I = 1,M
C             Hamilton Product
                HTMPS = HTMPS + A(1,I,J)*X(1,I) - A(2,I,J)*CONJG(X(2,I))
                HTMPJ = HTMPJ + A(1,I,J)*X(2,I) + A(2,I,J)*CONJG(X(1,I))
  90          CONTINUE
            ELSE
              DO 100 I = 1,M
C               Hamilton Product (IMPLIED CONJ(A))
                HTMPS = HTMPS + 
     $            CONJG(A(1,I,J))*X(1,I) + A(2,I,J)*CONJG(X(2,I))
                HTMPJ = HTMPJ + 
     $            CONJG(A(1,I,J))*X(2,I) - A(2,I,J)*CONJG(X(1,I))
  100         CONTINUE
            ENDIF
            Y(1,JY) = Y(1,JY) + ALPHA * HTMPS
            Y(2,JY) = Y(2,JY) + ALPHA * HTMPJ
            JY = JY + INCY
  110     CONTINUE
        ELSE
          DO 140 J = 1,N
            HTMPS = ZERO
            HTMPJ = ZERO
            IX = KX
            IF ( NOCONJ ) THEN
              DO 120 I = 1,M
C             Hamilton Product
                HTMPS = HTMPS + 
     $            A(1,I,J)*X(1,IX) - A(2,I,J)*CONJG(X(2,IX))
                HTMPJ = HTMPJ + 
     $            A(1,I,J)*X(2,IX) + A(2,I,J)*CONJG(X(1,IX))
                IX = IX + INCX
  120         CONTINUE
            ELSE
              DO 130 I = 1,M
C               Hamilton Product (IMPLIED CONJ(A))
                HTMPS = HTMPS + 
     $            CONJG(A(1,I,J))*X(1,IX) + A(2,I,J)*CONJG(X(2,IX))
                HTMPJ = HTMPJ + 
     $            CONJG(A(1,I,J))*X(2,IX) - A(2,I,J)*CONJG(X(1,IX))
                IX = IX + INCX
  130         CONTINUE
            ENDIF
            Y(1,JY) = Y(1,JY) + ALPHA * HTMPS
            Y(2,JY) = Y(2,JY) + ALPHA * HTMPJ
            JY = JY + INCY
  140     CONTINUE
        ENDIF
      ENDIF
C
      END
".
(** src/hblas/fortran/hblas2/hgemvhd.f, all 196 lines *)
Definition src_hgemvhd : string := "C 
C     This file is a part of HAXX
C     
C     Copyright (c) 2017 David Williams-Young
C     All rights reserved.
C     
C     See LICENSE.txt 
C
      Subroutine HGEMVHD(TRANS, M, N, ALPHA, A, LDA, X, INCX, BETA,
     $  Y, INCY)
C
      LOGICAL LSAME
      EXTERNAL LSAME
C
      CHARACTER TRANS
      LOGICAL   NOCONJ, AZERO,AONE,BZERO,BONE
      INTEGER*4 M,N, LDA,INCX,INCY, LENX,LENY, I,J,IY,JX,IX,JY, KX,KY
      REAL*8    BETA
      COMPLEX*16    A(2,LDA,*), X(2,*), Y(2,*), ALPHA(2)
C
      COMPLEX*16    HTMP1S, HTMP1J, HTMP2S, HTMP2J
      COMPLEX*16    HTMP3S, HTMP3J, HTMP4S, HTMP4J
C
      COMPLEX*16    ONE, ZERO
      PARAMETER (ONE=(1.0D+0,0.0D+0), ZERO=(0.0D+0,0.0D+0))
C
      NOCONJ = LSAME('T',TRANS)
      IF ( LSAME('T',TRANS) ) THEN
        LENX = N
        LENY = M
      ELSE
        LENX = M
        LENY = N
      ENDIF

      AZERO = (ALPHA(1).EQ.ZERO).AND.((ALPHA(2).EQ.ZERO))
      AONE  = (ALPHA(1).EQ.ONE).AND.((ALPHA(2).EQ.ZERO))
      BZERO = BETA.EQ.ZERO
      BONE  = BETA.EQ.ONE
C
      IF ( (M.EQ.0) .OR. (N.EQ.0) .OR. 
     $     ( AZERO .AND. BONE ) ) RETURN
C
C
      IF ( INCX.GT.0 ) THEN
        KX = 1
      ELSE
        KX = 1 - (LENX-1)*INCX
      ENDIF

      IF ( INCY.GT.0 ) THEN
        KY = 1
      ELSE
        KY = 1 - (LENY-1)*INCY
      ENDIF
C

      IF ( .NOT.BONE ) THEN
        IF ( INCY.EQ.1 ) THEN
          IF ( BZERO ) THEN
            DO 10 I = 1,LENY
              Y(1,I) = ZERO
              Y(2,I) = ZERO
  10        CONTINUE
          ELSE
            DO 20 I = 1,LENY
              Y(1,I) = BETA * Y(1,I) 
              Y(2,I) = BETA * Y(2,I) 
  20        CONTINUE
          ENDIF
        ELSE
          IY = KY
          IF ( BZERO ) THEN
            DO 30 I = 1,LENY
              Y(1,IY) = ZERO
              Y(2,IY) = ZERO
              IY = IY + INCY
  30        CONTINUE
          ELSE
            DO 40 I = 1,LENY
              Y(1,IY) = BETA * Y(1,IY) 
              Y(2,IY) = BETA * Y(2,IY) 
              IY = IY + INCY
  40        CONTINUE
          ENDIF
        ENDIF
      ENDIF
C
      IF ( AZERO )  RETURN ! Nothing left to do
C
      IF ( LSAME(TRANS,'N') ) THEN
        JX = KX
        IF ( INCY.EQ.1 ) THEN
          DO 60 J = 1,N
            HTMP1S = ALPHA(1) * X(1,JX)
            HTMP1J = ALPHA(1) * X(2,JX)
            HTMP2S = ALPHA(1) * CONJG(X(1,JX))
            HTMP2J = ALPHA(1) * CONJG(X(2,JX))
            HTMP3S = ALPHA(2) * X(1,JX)
            HTMP3J = ALPHA(2) * X(2,JX)
            HTMP4S = ALPHA(2) * CONJG(X(1,JX))
            HTMP4J = ALPHA(2) * CONJG(X(2,JX))
            Do 50 I = 1,M
C             Hamilton Product
              Y(1,I) = Y(1,I) + 
     $          A(1,I,J)*HTMP1S - A(2,I,J)*HTMP2J -
     $          CONJG(A(1,I,J))*HTMP4J - CONJG(A(2,I,J))*HTMP3S
              Y(2,I) = Y(2,I) + 
     $          A(1,I,J)*HTMP1J + A(2,I,J)*HTMP2S +
     $          CONJG(A(1,I,J))*HTMP4S - CONJG(A(2,I,J))*HTMP3J
  50        CONTINUE 
            JX = JX + INCX
  60      CONTINUE
        ELSE
          DO 80 J = 1,N
            HTMP1S = ALPHA(1) * X(1,JX)
            HTMP1J = ALPHA(1) * X(2,JX)
            HTMP2S = ALPHA(1) * CONJG(X(1,JX))
            HTMP2J = ALPHA(1) * CONJG(X(2,JX))
            HTMP3S = ALPHA(2) * X(1,JX)
            HTMP3J = ALPHA(2) * X(2,JX)
            HTMP4S = ALPHA(2) * CONJG(X(1,JX))
            HTMP4J = ALPHA(2) * CONJG(X(2,JX))
            IY = KY
            Do 70 I = 1,M
C             Hamilton Product
              Y(1,IY) = Y(1,IY) + 
     $          A(1,I,J)*HTMP1S - A(2,I,J)*HTMP2J -
     $          CONJG(A(1,I,J))*HTMP4J - CONJG(A(2,I,J))*HTMP3S
              Y(2,IY) = Y(2,IY) + 
     $          A(1,I,J)*HTMP1J + A(2,I,J)*CONJG(HTMP2S) +
     $          CONJG(A(1,I,J))*HTMP4S - CONJG(A(2,I,J))*HTMP3J
              IY = IY + INCY
  70        CONTINUE 
            JX = JX + INCX
  80      CONTINUE
        ENDIF
      ELSE
        JY = KY
        IF ( INCX.EQ.1 ) THEN
          DO 110 J = 1,N
            HTMP1S = ZERO
            HTMP1J = ZERO
            IF ( NOCONJ ) THEN
              DO 90 I = 1,M
C             Hamilton Product
                HTMP1S = HTMP1S + 
     $            A(1,I,J)*X(1,I) - A(2,I,J)*CONJG(X(2,I))
                HTMP1J = HTMP1J + 
     $            A(1,I,J)*X(2,I) + A(2,I,J)*CONJG(X(1,I))
  90          CONTINUE
            ELSE
              DO 100 I = 1,M
C               Hamilton Product (IMPLIED CONJ(A))
                HTMP1S = HTMP1S + 
     $            CONJG(A(1,I,J))*X(1,I) + A(2,I,J)*CONJG(X(2,I))
                HTMP1J = HTMP1J + 
     $            CONJG(A(1,I,J))*X(2,I) - A(2,I,J)*CONJG(X(1,I))
  100         CONTINUE
            ENDIF
            Y(1,JY) = Y(1,JY) + ALPHA(1)*HTMP1S - ALPHA(2)*CONJG(HTMP1J)
            Y(2,JY) = Y(2,JY) + ALPHA(1)*HTMP1J + ALPHA(2)*CONJG(HTMP1S)
            JY = JY + INCY
  110     CONTINUE
        ELSE
          DO 140 J = 1,N
            HTMP1S = ZERO
            HTMP1J = ZERO
            IX = KX
            IF ( NOCONJ ) THEN
              DO 120 I = 1,M
C             Hamilton Product
                HTMP1S = HTMP1S + 
     $            A(1,I,J)*X(1,IX) - A(2,I,J)*CONJG(X(2,IX))
                HTMP1J = HTMP1J + 
     $            A(1,I,J)*X(2,IX) + A(2,I,J)*CONJG(X(1,IX))
                IX = IX + INCX
  120         CONTINUE
            ELSE
              DO 130 I = 1,M
C               Hamilton Product (IMPLIED CONJ(A))
                HTMP1S = HTMP1S + 
     $            CONJG(A(1,I,J))*X(1,IX) + A(2,I,J)*CONJG(X(2,IX))
                HTMP1J = HTMP1J + 
     $            CONJG(A(1,I,J))*X(2,IX) - A(2,I,J)*CONJG(X(1,IX))
                IX = IX + INCX
  130         CONTINUE
            ENDIF
            Y(1,JY) = Y(1,JY) + ALPHA(1)*HTMP1S - ALPHA(2)*CONJG(HTMP1J)
            Y(2,JY) = Y(2,JY) + ALPHA(1)*HTMP1J + ALPHA(2)*CONJG(HTMP1S)
            JY = JY + INCY
  140     CONTINUE
        ENDIF
      ENDIF
C
      END
".
(** src/hblas/fortran/hblas2/hgemvhh.f, all 197 lines *)
Definition src_hgemvhh : string := "C 
C     This file is a part of HAXX
C     
C     Copyright (c) 2017 David Williams-Young
C     All rights reserved.
C     
C     See LICENSE.txt 
C
      Subroutine HGEMVHH(TRANS, M, N, ALPHA, A, LDA, X, INCX, BETA,
     $  Y, INCY)
C
      LOGICAL LSAME
      EXTERNAL LSAME
C
      CHARACTER TRANS
      LOGICAL   NOCONJ, AZERO,AONE,BZERO,BONE
      INTEGER*4 M,N, LDA,INCX,INCY, LENX,LENY, I,J,IY,JX,IX,JY, KX,KY
      COMPLEX*16    A(2,LDA,*), X(2,*), Y(2,*), ALPHA(2), BETA(2)
C
      COMPLEX*16    HTMP1S, HTMP1J, HTMP2S, HTMP2J
      COMPLEX*16    HTMP3S, HTMP3J, HTMP4S, HTMP4J
C
      COMPLEX*16    ONE, ZERO
      PARAMETER (ONE=(1.0D+0,0.0D+0), ZERO=(0.0D+0,0.0D+0))
C
      NOCONJ = LSAME('T',TRANS)
      IF ( LSAME('T',TRANS) ) THEN
        LENX = N
        LENY = M
      ELSE
        LENX = M
        LENY = N
      ENDIF

      AZERO = (ALPHA(1).EQ.ZERO).AND.((ALPHA(2).EQ.ZERO))
      AONE  = (ALPHA(1).EQ.ONE).AND.((ALPHA(2).EQ.ZERO))
      BZERO = (BETA(1).EQ.ZERO).AND.((BETA(2).EQ.ZERO))
      BONE  = (BETA(1).EQ.ONE).AND.((BETA(2).EQ.ZERO))
C
      IF ( (M.EQ.0) .OR. (N.EQ.0) .OR. 
     $     ( AZERO .AND. BONE ) ) RETURN
C
C
      IF ( INCX.GT.0 ) THEN
        KX = 1
      ELSE
        KX = 1 - (LENX-1)*INCX
      ENDIF

      IF ( INCY.GT.0 ) THEN
        KY = 1
      ELSE
        KY = 1 - (LENY-1)*INCY
      ENDIF
C

      IF ( .NOT.BONE ) THEN
        IF ( INCY.EQ.1 ) THEN
          IF ( BZERO ) THEN
            DO 10 I = 1,LENY
              Y(1,I) = ZERO
              Y(2,I) = ZERO
  10        CONTINUE
          ELSE
            DO 20 I = 1,LENY
              HTMP1S = BETA(1) * Y(1,I) - BETA(2) * CONJG(Y(2,I)) 
              Y(2,I) = BETA(1) * Y(2,I) + BETA(2) * CONJG(Y(1,I))
              Y(1,I) = HTMP1S
  20        CONTINUE
          ENDIF
        ELSE
          IY = KY
          IF ( BZERO ) THEN
            DO 30 I = 1,LENY
              Y(1,IY) = ZERO
              Y(2,IY) = ZERO
              IY = IY + INCY
  30        CONTINUE
          ELSE
            DO 40 I = 1,LENY
              HTMP1S = BETA(1) * Y(1,IY) - BETA(2) * CONJG(Y(2,IY)) 
              Y(2,IY) = BETA(1) * Y(2,IY) + BETA(2) * CONJG(Y(1,IY))
              Y(1,IY) = HTMP1S
              IY = IY + INCY
  40        CONTINUE
          ENDIF
        ENDIF
      ENDIF
C
      IF ( AZERO )  RETURN ! Nothing left to do
C
      IF ( LSAME(TRANS,'N') ) THEN
        JX = KX
        IF ( INCY.EQ.1 ) THEN
          DO 60 J = 1,N
            HTMP1S = ALPHA(1) * X(1,JX)
            HTMP1J = ALPHA(1) * X(2,JX)
            HTMP2S = ALPHA(1) * CONJG(X(1,JX))
            HTMP2J = ALPHA(1) * CONJG(X(2,JX))
            HTMP3S = ALPHA(2) * X(1,JX)
            HTMP3J = ALPHA(2) * X(2,JX)
            HTMP4S = ALPHA(2) * CONJG(X(1,JX))
            HTMP4J = ALPHA(2) * CONJG(X(2,JX))
            Do 50 I = 1,M
C             Hamilton Product
              Y(1,I) = Y(1,I) + 
     $          A(1,I,J)*HTMP1S - A(2,I,J)*HTMP2J -
     $          CONJG(A(1,I,J))*HTMP4J - CONJG(A(2,I,J))*HTMP3S
              Y(2,I) = Y(2,I) + 
     $          A(1,I,J)*HTMP1J + A(2,I,J)*HTMP2S +
     $          CONJG(A(1,I,J))*HTMP4S - CONJG(A(2,I,J))*HTMP3J
  50        CONTINUE 
            JX = JX + INCX
  60      CONTINUE
        ELSE
          DO 80 J = 1,N
            HTMP1S = ALPHA(1) * X(1,JX)
            HTMP1J = ALPHA(1) * X(2,JX)
            HTMP2S = ALPHA(1) * CONJG(X(1,JX))
            HTMP2J = ALPHA(1) * CONJG(X(2,JX))
            HTMP3S = ALPHA(2) * X(1,JX)
            HTMP3J = ALPHA(2) * X(2,JX)
            HTMP4S = ALPHA(2) * CONJG(X(1,JX))
            HTMP4J = ALPHA(2) * CONJG(X(2,JX))
            IY = KY
            Do 70 I = 1,M
C             Hamilton Product
              Y(1,IY) = Y(1,IY) + 
     $          A(1,I,J)*HTMP1S - A(2,I,J)*HTMP2J -
     $          CONJG(A(1,I,J))*HTMP4J - CONJG(A(2,I,J))*HTMP3S
              Y(2,IY) = Y(2,IY) + 
     $          A(1,I,J)*HTMP1J + A(2,I,J)*CONJG(HTMP2S) +
     $          CONJG(A(1,I,J))*HTMP4S - CONJG(A(2,I,J))*HTMP3J
              IY = IY + INCY
  70        CONTINUE 
            JX = JX + INCX
  80      CONTINUE
        ENDIF
      ELSE
        JY = KY
        IF ( INCX.EQ.1 ) THEN
          DO 110 J = 1,N
            HTMP1S = ZERO
            HTMP1J = ZERO
            IF ( NOCONJ ) THEN
              DO 90 I = 1,M
C             Hamilton Product
                HTMP1S = HTMP1S + 
     $            A(1,I,J)*X(1,I) - A(2,I,J)*CONJG(X(2,I))
                HTMP1J = HTMP1J + 
     $            A(1,I,J)*X(2,I) + A(2,I,J)*CONJG(X(1,I))
  90          CONTINUE
            ELSE
              DO 100 I = 1,M
C               Hamilton Product (IMPLIED CONJ(A))
                HTMP1S = HTMP1S + 
     $            CONJG(A(1,I,J))*X(1,I) + A(2,I,J)*CONJG(X(2,I))
                HTMP1J = HTMP1J + 
     $            CONJG(A(1,I,J))*X(2,I) - A(2,I,J)*CONJG(X(1,I))
  100         CONTINUE
            ENDIF
            Y(1,JY) = Y(1,JY) + ALPHA(1)*HTMP1S - ALPHA(2)*CONJG(HTMP1J)
            Y(2,JY) = Y(2,JY) + ALPHA(1)*HTMP1J + ALPHA(2)*CONJG(HTMP1S)
            JY = JY + INCY
  110     CONTINUE
        ELSE
          DO 140 J = 1,N
            HTMP1S = ZERO
            HTMP1J = ZERO
            IX = KX
            IF ( NOCONJ ) THEN
              DO 120 I = 1,M
C             Hamilton Product
                HTMP1S = HTMP1S + 
     $            A(1,I,J)*X(1,IX) - A(2,I,J)*CONJG(X(2,IX))
                HTMP1J = HTMP1J + 
     $            A(1,I,J)*X(2,IX) + A(2,I,J)*CONJG(X(1,IX))
                IX = IX + INCX
  120         CONTINUE
            ELSE
              DO 130 I = 1,M
C               Hamilton Product (IMPLIED CONJ(A))
                HTMP1S = HTMP1S + 
     $            CONJG(A(1,I,J))*X(1,IX) + A(2,I,J)*CONJG(X(2,IX))
                HTMP1J = HTMP1J + 
     $            CONJG(A(1,I,J))*X(2,IX) - A(2,I,J)*CONJG(X(1,IX))
                IX = IX + INCX
  130         CONTINUE
            ENDIF
            Y(1,JY) = Y(1,JY) + ALPHA(1)*HTMP1S - ALPHA(2)*CONJG(HTMP1J)
            Y(2,JY) = Y(2,JY) + ALPHA(1)*HTMP1J + ALPHA(2)*CONJG(HTMP1S)
            JY = JY + INCY
  140     CONTINUE
        ENDIF
      ENDIF
C
      END
".
(** src/hblas/fortran/hblas2/hgemvhz.f, all 195 lines *)
Definition src_hgemvhz : string := "C 
C     This file is a part of HAXX
C     
C     Copyright (c) 2017 David Williams-Young
C     All rights reserved.
C     
C     See LICENSE.txt 
C
      Subroutine HGEMVHZ(TRANS, M, N, ALPHA, A, LDA, X, INCX, BETA,
     $  Y, INCY)
C
      LOGICAL LSAME
      EXTERNAL LSAME
C
      CHARACTER TRANS
      LOGICAL   NOCONJ, AZERO,AONE,BZERO,BONE
      INTEGER*4 M,N, LDA,INCX,INCY, LENX,LENY, I,J,IY,JX,IX,JY, KX,KY
      COMPLEX*16    A(2,LDA,*), X(2,*), Y(2,*), ALPHA(2), BETA
C
      COMPLEX*16    HTMP1S, HTMP1J, HTMP2S, HTMP2J
      COMPLEX*16    HTMP3S, HTMP3J, HTMP4S, HTMP4J
C
      COMPLEX*16    ONE, ZERO
      PARAMETER (ONE=(1.0D+0,0.0D+0), ZERO=(0.0D+0,0.0D+0))
C
      NOCONJ = LSAME('T',TRANS)
      IF ( LSAME('T',TRANS) ) THEN
        LENX = N
        LENY = M
      ELSE
        LENX = M
        LENY = N
      ENDIF

      AZERO = (ALPHA(1).EQ.ZERO).AND.((ALPHA(2).EQ.ZERO))
      AONE  = (ALPHA(1).EQ.ONE).AND.((ALPHA(2).EQ.ZERO))
      BZERO = BETA.EQ.ZERO
      BONE  = BETA.EQ.ONE
C
      IF ( (M.EQ.0) .OR. (N.EQ.0) .OR. 
     $     ( AZERO .AND. BONE ) ) RETURN
C
C
      IF ( INCX.GT.0 ) THEN
        KX = 1
      ELSE
        KX = 1 - (LENX-1)*INCX
      ENDIF

      IF ( INCY.GT.0 ) THEN
        KY = 1
      ELSE
        KY = 1 - (LENY-1)*INCY
      ENDIF
C

      IF ( .NOT.BONE ) THEN
        IF ( INCY.EQ.1 ) THEN
          IF ( BZERO ) THEN
            DO 10 I = 1,LENY
              Y(1,I) = ZERO
              Y(2,I) = ZERO
  10        CONTINUE
          ELSE
            DO 20 I = 1,LENY
              Y(1,I) = BETA * Y(1,I) 
              Y(2,I) = BETA * Y(2,I) 
  20        CONTINUE
          ENDIF
        ELSE
          IY = KY
          IF ( BZERO ) THEN
            DO 30 I = 1,LENY
              Y(1,IY) = ZERO
              Y(2,IY) = ZERO
              IY = IY + INCY
  30        CONTINUE
          ELSE
            DO 40 I = 1,LENY
              Y(1,IY) = BETA * Y(1,IY) 
              Y(2,IY) = BETA * Y(2,IY) 
              IY = IY + INCY
  40        CONTINUE
          ENDIF
        ENDIF
      ENDIF
C
      IF ( AZERO )  RETURN ! Nothing left to do
C
      IF ( LSAME(TRANS,'N') ) THEN
        JX = KX
        IF ( INCY.EQ.1 ) THEN
          DO 60 J = 1,N
            HTMP1S = ALPHA(1) * X(1,JX)
            HTMP1J = ALPHA(1) * X(2,JX)
            HTMP2S = ALPHA(1) * CONJG(X(1,JX))
            HTMP2J = ALPHA(1) * CONJG(X(2,JX))
            HTMP3S = ALPHA(2) * X(1,JX)
            HTMP3J = ALPHA(2) * X(2,JX)
            HTMP4S = ALPHA(2) * CONJG(X(1,JX))
            HTMP4J = ALPHA(2) * CONJG(X(2,JX))
            Do 50 I = 1,M
C             Hamilton Product
              Y(1,I) = Y(1,I) + 
     $          A(1,I,J)*HTMP1S - A(2,I,J)*HTMP2J -
     $          CONJG(A(1,I,J))*HTMP4J - CONJG(A(2,I,J))*HTMP3S
              Y(2,I) = Y(2,I) + 
     $          A(1,I,J)*HTMP1J + A(2,I,J)*HTMP2S +
     $          CONJG(A(1,I,J))*HTMP4S - CONJG(A(2,I,J))*HTMP3J
  50        CONTINUE 
            JX = JX + INCX
  60      CONTINUE
        ELSE
          DO 80 J = 1,N
            HTMP1S = ALPHA(1) * X(1,JX)
            HTMP1J = ALPHA(1) * X(2,JX)
            HTMP2S = ALPHA(1) * CONJG(X(1,JX))
            HTMP2J = ALPHA(1) * CONJG(X(2,JX))
            HTMP3S = ALPHA(2) * X(1,JX)
            HTMP3J = ALPHA(2) * X(2,JX)
            HTMP4S = ALPHA(2) * CONJG(X(1,JX))
            HTMP4J = ALPHA(2) * CONJG(X(2,JX))
            IY = KY
            Do 70 I = 1,M
C             Hamilton Product
              Y(1,IY) = Y(1,IY) + 
     $          A(1,I,J)*HTMP1S - A(2,I,J)*HTMP2J -
     $          CONJG(A(1,I,J))*HTMP4J - CONJG(A(2,I,J))*HTMP3S
              Y(2,IY) = Y(2,IY) + 
     $          A(1,I,J)*HTMP1J + A(2,I,J)*CONJG(HTMP2S) +
     $          CONJG(A(1,I,J))*HTMP4S - CONJG(A(2,I,J))*HTMP3J
              IY = IY + INCY
  70        CONTINUE 
            JX = JX + INCX
  80      CONTINUE
        ENDIF
      ELSE
        JY = KY
        IF ( INCX.EQ.1 ) THEN
          DO 110 J = 1,N
            HTMP1S = ZERO
            HTMP1J = ZERO
            IF ( NOCONJ ) THEN
              DO 90 I = 1,M
C             Hamilton Product
                HTMP1S = HTMP1S + 
     $            A(1,I,J)*X(1,I) - A(2,I,J)*CONJG(X(2,I))
                HTMP1J = HTMP1J + 
     $            A(1,I,J)*X(2,I) + A(2,I,J)*CONJG(X(1,I))
  90          CONTINUE
            ELSE
              DO 100 I = 1,M
C               Hamilton Product (IMPLIED CONJ(A))
                HTMP1S = HTMP1S + 
     $            CONJG(A(1,I,J))*X(1,I) + A(2,I,J)*CONJG(X(2,I))
                HTMP1J = HTMP1J + 
     $            CONJG(A(1,I,J))*X(2,I) - A(2,I,J)*CONJG(X(1,I))
  100         CONTINUE
            ENDIF
            Y(1,JY) = Y(1,JY) + ALPHA(1)*HTMP1S - ALPHA(2)*CONJG(HTMP1J)
            Y(2,JY) = Y(2,JY) + ALPHA(1)*HTMP1J + ALPHA(2)*CONJG(HTMP1S)
            JY = JY + INCY
  110     CONTINUE
        ELSE
          DO 140 J = 1,N
            HTMP1S = ZERO
            HTMP1J = ZERO
            IX = KX
            IF ( NOCONJ ) THEN
              DO 120 I = 1,M
C             Hamilton Product
                HTMP1S = HTMP1S + 
     $            A(1,I,J)*X(1,IX) - A(2,I,J)*CONJG(X(2,IX))
                HTMP1J = HTMP1J + 
     $            A(1,I,J)*X(2,IX) + A(2,I,J)*CONJG(X(1,IX))
                IX = IX + INCX
  120         CONTINUE
            ELSE
              DO 130 I = 1,M
C               Hamilton Product (IMPLIED CONJ(A))
                HTMP1S = HTMP1S + 
     $            CONJG(A(1,I,J))*X(1,IX) + A(2,I,J)*CONJG(X(2,IX))
                HTMP1J = HTMP1J + 
     $            CONJG(A(1,I,J))*X(2,IX) - A(2,I,J)*CONJG(X(1,IX))
                IX = IX + INCX
  130         CONTINUE
            ENDIF
            Y(1,JY) = Y(1,JY) + ALPHA(1)*HTMP1S - ALPHA(2)*CONJG(HTMP1J)
            Y(2,JY) = Y(2,JY) + ALPHA(1)*HTMP1J + ALPHA(2)*CONJG(HTMP1S)
            JY = JY + INCY
  140     CONTINUE
        ENDIF
      ENDIF
C
      END
".
(** src/hblas/fortran/hblas2/hgemvzd.f, all 179 lines *)
Definition src_hgemvzd : string := "C 
C     This file is a part of HAXX
C     
C     Copyright (c) 2017 David Williams-Young
C     All rights reserved.
C     
C     See LICENSE.txt 
C
      Subroutine HGEMVZD(TRANS, M, N, ALPHA, A, LDA, X, INCX, BETA,
     $  Y, INCY)
C
      LOGICAL LSAME
      EXTERNAL LSAME
C
      CHARACTER TRANS
      LOGICAL   NOCONJ, AZERO,AONE,BZERO,BONE
      INTEGER*4 M,N, LDA,INCX,INCY, LENX,LENY, I,J,IY,JX,IX,JY, KX,KY
      REAL*8    BETA
      COMPLEX*16    A(2,LDA,*), X(2,*), Y(2,*), ALPHA
C
      COMPLEX*16    HTMP1S, HTMP1J, HTMP2S, HTMP2J
C
      COMPLEX*16    ONE, ZERO
      PARAMETER (ONE=(1.0D+0,0.0D+0), ZERO=(0.0D+0,0.0D+0))
C
      NOCONJ = LSAME('T',TRANS)
      IF ( LSAME('T',TRANS) ) THEN
        LENX = N
        LENY = M
      ELSE
        LENX = M
        LENY = N
      ENDIF

      AZERO = ALPHA.EQ.ZERO
      AONE  = ALPHA.EQ.ONE
      BZERO = BETA.EQ.ZERO
      BONE  = BETA.EQ.ONE
C
      IF ( (M.EQ.0) .OR. (N.EQ.0) .OR. 
     $     ( AZERO .AND. BONE ) ) RETURN
C
C
      IF ( INCX.GT.0 ) THEN
        KX = 1
      ELSE
        KX = 1 - (LENX-1)*INCX
      ENDIF

      IF ( INCY.GT.0 ) THEN
        KY = 1
      ELSE
        KY = 1 - (LENY-1)*INCY
      ENDIF
C

      IF ( .NOT.BONE ) THEN
        IF ( INCY.EQ.1 ) THEN
          IF ( BZERO ) THEN
            DO 10 I = 1,LENY
              Y(1,I) = ZERO
              Y(2,I) = ZERO
  10        CONTINUE
          ELSE
            DO 20 I = 1,LENY
              Y(1,I) = BETA * Y(1,I) 
              Y(2,I) = BETA * Y(2,I) 
  20        CONTINUE
          ENDIF
        ELSE
          IY = KY
          IF ( BZERO ) THEN
            DO 30 I = 1,LENY
              Y(1,IY) = ZERO
              Y(2,IY) = ZERO
              IY = IY + INCY
  30        CONTINUE
          ELSE
            DO 40 I = 1,LENY
              Y(1,IY) = BETA * Y(1,IY) 
              Y(2,IY) = BETA * Y(2,IY) 
              IY = IY + INCY
  40        CONTINUE
          ENDIF
        ENDIF
      ENDIF
C
      IF ( AZERO )  RETURN ! Nothing left to do
C
      IF ( LSAME(TRANS,'N') ) THEN
        JX = KX
        IF ( INCY.EQ.1 ) THEN
          DO 60 J = 1,N
            HTMP1S = ALPHA * X(1,JX)
            HTMP1J = ALPHA * X(2,JX)
            HTMP2S = ALPHA * CONJG(X(1,JX))
            HTMP2J = ALPHA * CONJG(X(2,JX))
            Do 50 I = 1,M
C             Hamilton Product
              Y(1,I) = Y(1,I) + A(1,I,J)*HTMP1S - A(2,I,J)*HTMP2J
              Y(2,I) = Y(2,I) + A(1,I,J)*HTMP1J + A(2,I,J)*HTMP2S 
  50        CONTINUE 
            JX = JX + INCX
  60      CONTINUE
        ELSE
          DO 80 J = 1,N
            HTMP1S = ALPHA * X(1,JX)
            HTMP1J = ALPHA * X(2,JX)
            HTMP2S = ALPHA * CONJG(X(1,JX))
            HTMP2J = ALPHA * CONJG(X(2,JX))
            IY = KY
            Do 70 I = 1,M
C             Hamilton Product
              Y(1,IY) = Y(1,IY) + A(1,I,J)*HTMP1S - A(2,I,J)*HTMP2J
              Y(2,IY) = Y(2,IY) + A(1,I,J)*HTMP1J + A(2,I,J)*HTMP2S
              IY = IY + INCY
  70        CONTINUE 
            JX = JX + INCX
  80      CONTINUE
        ENDIF
      ELSE
        JY = KY
        IF ( INCX.EQ.1 ) THEN
          DO 110 J = 1,N
            HTMP1S = ZERO
            HTMP1J = ZERO
            IF ( NOCONJ ) THEN
              DO 90 I = 1,M
C             Hamilton Product
                HTMP1S = HTMP1S + 
     $            A(1,I,J)*X(1,I) - A(2,I,J)*CONJG(X(2,I))
                HTMP1J = HTMP1J + 
     $            A(1,I,J)*X(2,I) + A(2,I,J)*CONJG(X(1,I))
  90          CONTINUE
            ELSE
              DO 100 I = 1,M
C               Hamilton Product (IMPLIED CONJ(A))
                HTMP1S = HTMP1S + 
     $            CONJG(A(1,I,J))*X(1,I) + A(2,I,J)*CONJG(X(2,I))
                HTMP1J = HTMP1J + 
     $            CONJG(A(1,I,J))*X(2,I) - A(2,I,J)*CONJG(X(1,I))
  100         CONTINUE
            ENDIF
            Y(1,JY) = Y(1,JY) + ALPHA*HTMP1S
            Y(2,JY) = Y(2,JY) + ALPHA*HTMP1J
            JY = JY + INCY
  110     CONTINUE
        ELSE
          DO 140 J = 1,N
            HTMP1S = ZERO
            HTMP1J = ZERO
            IX = KX
            IF ( NOCONJ ) THEN
              DO 120 I = 1,M
C             Hamilton Product
                HTMP1S = HTMP1S + 
     $            A(1,I,J)*X(1,IX) - A(2,I,J)*CONJG(X(2,IX))
                HTMP1J = HTMP1J + 
     $            A(1,I,J)*X(2,IX) + A(2,I,J)*CONJG(X(1,IX))
                IX = IX + INCX
  120         CONTINUE
            ELSE
              DO 130 I = 1,M
C               Hamilton Product (IMPLIED CONJ(A))
                HTMP1S = HTMP1S + 
     $            CONJG(A(1,I,J))*X(1,IX) + A(2,I,J)*CONJG(X(2,IX))
                HTMP1J = HTMP1J + 
     $            CONJG(A(1,I,J))*X(2,IX) - A(2,I,J)*CONJG(X(1,IX))
                IX = IX + INCX
  130         CONTINUE
            ENDIF
            Y(1,JY) = Y(1,JY) + ALPHA*HTMP1S
            Y(2,JY) = Y(2,JY) + ALPHA*HTMP1J
            JY = JY + INCY
  140     CONTINUE
        ENDIF
      ENDIF
C
      END
".
(** src/hblas/fortran/hblas2/hgemvzh.f, all 180 lines *)
Definition src_hgemvzh : string := "C 
C     This file is a part of HAXX
C     
C     Copyright (c) 2017 David Williams-Young
C     All rights reserved.
C     
C     See LICENSE.txt 
C
      Subroutine HGEMVZH(TRANS, M, N, ALPHA, A, LDA, X, INCX, BETA,
     $  Y, INCY)
C
      LOGICAL LSAME
      EXTERNAL LSAME
C
      CHARACTER TRANS
      LOGICAL   NOCONJ, AZERO,AONE,BZERO,BONE
      INTEGER*4 M,N, LDA,INCX,INCY, LENX,LENY, I,J,IY,JX,IX,JY, KX,KY
      COMPLEX*16    A(2,LDA,*), X(2,*), Y(2,*), ALPHA, BETA(2)
C
      COMPLEX*16    HTMP1S, HTMP1J, HTMP2S, HTMP2J
C
      COMPLEX*16    ONE, ZERO
      PARAMETER (ONE=(1.0D+0,0.0D+0), ZERO=(0.0D+0,0.0D+0))
C
      NOCONJ = LSAME('T',TRANS)
      IF ( LSAME('T',TRANS) ) THEN
        LENX = N
        LENY = M
      ELSE
        LENX = M
        LENY = N
      ENDIF

      AZERO = ALPHA.EQ.ZERO
      AONE  = ALPHA.EQ.ONE
      BZERO = (BETA(1).EQ.ZERO) .AND. (BETA(2).EQ.ZERO)
      BONE  = (BETA(1).EQ.ONE)  .AND. (BETA(2).EQ.ZERO)
C
      IF ( (M.EQ.0) .OR. (N.EQ.0) .OR. 
     $     ( AZERO .AND. BONE ) ) RETURN
C
C
      IF ( INCX.GT.0 ) THEN
        KX = 1
      ELSE
        KX = 1 - (LENX-1)*INCX
      ENDIF

      IF ( INCY.GT.0 ) THEN
        KY = 1
      ELSE
        KY = 1 - (LENY-1)*INCY
      ENDIF
C

      IF ( .NOT.BONE ) THEN
        IF ( INCY.EQ.1 ) THEN
          IF ( BZERO ) THEN
            DO 10 I = 1,LENY
              Y(1,I) = ZERO
              Y(2,I) = ZERO
  10        CONTINUE
          ELSE
            DO 20 I = 1,LENY
              HTMP1S = BETA(1) * Y(1,I) - BETA(2) * CONJG(Y(2,I)) 
              Y(2,I) = BETA(1) * Y(2,I) + BETA(2) * CONJG(Y(1,I))
              Y(1,I) = HTMP1S
  20        CONTINUE
          ENDIF
        ELSE
          IY = KY
          IF ( BZERO ) THEN
            DO 30 I = 1,LENY
              Y(1,IY) = ZERO
              Y(2,IY) = ZERO
              IY = IY + INCY
  30        CONTINUE
          ELSE
            DO 40 I = 1,LENY
              HTMP1S = BETA(1) * Y(1,IY) - BETA(2) * CONJG(Y(2,IY)) 
              Y(2,IY) = BETA(1) * Y(2,IY) + BETA(2) * CONJG(Y(1,IY))
              Y(1,IY) = HTMP1S
              IY = IY + INCY
  40        CONTINUE
          ENDIF
        ENDIF
      ENDIF
C
      IF ( AZERO )  RETURN ! Nothing left to do
C
      IF ( LSAME(TRANS,'N') ) THEN
        JX = KX
        IF ( INCY.EQ.1 ) THEN
          DO 60 J = 1,N
            HTMP1S = ALPHA * X(1,JX)
            HTMP1J = ALPHA * X(2,JX)
            HTMP2S = ALPHA * CONJG(X(1,JX))
            HTMP2J = ALPHA * CONJG(X(2,JX))
            Do 50 I = 1,M
C             Hamilton Product
              Y(1,I) = Y(1,I) + A(1,I,J)*HTMP1S - A(2,I,J)*HTMP2J
              Y(2,I) = Y(2,I) + A(1,I,J)*HTMP1J + A(2,I,J)*HTMP2S 
  50        CONTINUE 
            JX = JX + INCX
  60      CONTINUE
        ELSE
          DO 80 J = 1,N
            HTMP1S = ALPHA * X(1,JX)
            HTMP1J = ALPHA * X(2,JX)
            HTMP2S = ALPHA * CONJG(X(1,JX))
            HTMP2J = ALPHA * CONJG(X(2,JX))
            IY = KY
            Do 70 I = 1,M
C             Hamilton Product
              Y(1,IY) = Y(1,IY) + A(1,I,J)*HTMP1S - A(2,I,J)*HTMP2J
              Y(2,IY) = Y(2,IY) + A(1,I,J)*HTMP1J + A(2,I,J)*HTMP2S
              IY = IY + INCY
  70        CONTINUE 
            JX = JX + INCX
  80      CONTINUE
        ENDIF
      ELSE
        JY = KY
        IF ( INCX.EQ.1 ) THEN
          DO 110 J = 1,N
            HTMP1S = ZERO
            HTMP1J = ZERO
            IF ( NOCONJ ) THEN
              DO 90 I = 1,M
C             Hamilton Product
                HTMP1S = HTMP1S + 
     $            A(1,I,J)*X(1,I) - A(2,I,J)*CONJG(X(2,I))
                HTMP1J = HTMP1J + 
     $            A(1,I,J)*X(2,I) + A(2,I,J)*CONJG(X(1,I))
  90          CONTINUE
            ELSE
              DO 100 I = 1,M
C               Hamilton Product (IMPLIED CONJ(A))
                HTMP1S = HTMP1S + 
     $            CONJG(A(1,I,J))*X(1,I) + A(2,I,J)*CONJG(X(2,I))
                HTMP1J = HTMP1J + 
     $            CONJG(A(1,I,J))*X(2,I) - A(2,I,J)*CONJG(X(1,I))
  100         CONTINUE
            ENDIF
            Y(1,JY) = Y(1,JY) + ALPHA*HTMP1S
            Y(2,JY) = Y(2,JY) + ALPHA*HTMP1J
            JY = JY + INCY
  110     CONTINUE
        ELSE
          DO 140 J = 1,N
            HTMP1S = ZERO
            HTMP1J = ZERO
            IX = KX
            IF ( NOCONJ ) THEN
              DO 120 I = 1,M
C             Hamilton Product
                HTMP1S = HTMP1S + 
     $            A(1,I,J)*X(1,IX) - A(2,I,J)*CONJG(X(2,IX))
                HTMP1J = HTMP1J + 
     $            A(1,I,J)*X(2,IX) + A(2,I,J)*CONJG(X(1,IX))
                IX = IX + INCX
  120         CONTINUE
            ELSE
              DO 130 I = 1,M
C               Hamilton Product (IMPLIED CONJ(A))
                HTMP1S = HTMP1S + 
     $            CONJG(A(1,I,J))*X(1,IX) + A(2,I,J)*CONJG(X(2,IX))
                HTMP1J = HTMP1J + 
     $            CONJG(A(1,I,J))*X(2,IX) - A(2,I,J)*CONJG(X(1,IX))
                IX = IX + INCX
  130         CONTINUE
            ENDIF
            Y(1,JY) = Y(1,JY) + ALPHA*HTMP1S
            Y(2,JY) = Y(2,JY) + ALPHA*HTMP1J
            JY = JY + INCY
  140     CONTINUE
        ENDIF
      ENDIF
C
      END
".
(** src/hblas/fortran/hblas2/hgemvzz.f, all 178 lines *)
Definition src_hgemvzz : string := "C 
C     This file is a part of HAXX
C     
C     Copyright (c) 2017 David Williams-Young
C     All rights reserved.
C     
C     See LICENSE.txt 
C
      Subroutine HGEMVZZ(TRANS, M, N, ALPHA, A, LDA, X, INCX, BETA,
     $  Y, INCY)
C
      LOGICAL LSAME
      EXTERNAL LSAME
C
      CHARACTER TRANS
      LOGICAL   NOCONJ, AZERO,AONE,BZERO,BONE
      INTEGER*4 M,N, LDA,INCX,INCY, LENX,LENY, I,J,IY,JX,IX,JY, KX,KY
      COMPLEX*16    A(2,LDA,*), X(2,*), Y(2,*), ALPHA, BETA
C
      COMPLEX*16    HTMP1S, HTMP1J, HTMP2S, HTMP2J
C
      COMPLEX*16    ONE, ZERO
      PARAMETER (ONE=(1.0D+0,0.0D+0), ZERO=(0.0D+0,0.0D+0))
C
      NOCONJ = LSAME('T',TRANS)
      IF ( LSAME('T',TRANS) ) THEN
        LENX = N
        LENY = M
      ELSE
        LENX = M
        LENY = N
      ENDIF

      AZERO = ALPHA.EQ.ZERO
      AONE  = ALPHA.EQ.ONE
      BZERO = BETA.EQ.ZERO
      BONE  = BETA.EQ.ONE
C
      IF ( (M.EQ.0) .OR. (N.EQ.0) .OR. 
     $     ( AZERO .AND. BONE ) ) RETURN
C
C
      IF ( INCX.GT.0 ) THEN
        KX = 1
      ELSE
        KX = 1 - (LENX-1)*INCX
      ENDIF

      IF ( INCY.GT.0 ) THEN
        KY = 1
      ELSE
        KY = 1 - (LENY-1)*INCY
      ENDIF
C

      IF ( .NOT.BONE ) THEN
        IF ( INCY.EQ.1 ) THEN
          IF ( BZERO ) THEN
            DO 10 I = 1,LENY
              Y(1,I) = ZERO
              Y(2,I) = ZERO
  10        CONTINUE
          ELSE
            DO 20 I = 1,LENY
              Y(1,I) = BETA * Y(1,I) 
              Y(2,I) = BETA * Y(2,I) 
  20        CONTINUE
          ENDIF
        ELSE
          IY = KY
          IF ( BZERO ) THEN
            DO 30 I = 1,LENY
              Y(1,IY) = ZERO
              Y(2,IY) = ZERO
              IY = IY + INCY
  30        CONTINUE
          ELSE
            DO 40 I = 1,LENY
              Y(1,IY) = BETA * Y(1,IY) 
              Y(2,IY) = BETA * Y(2,IY) 
              IY = IY + INCY
  40        CONTINUE
          ENDIF
        ENDIF
      ENDIF
C
      IF ( AZERO )  RETURN ! Nothing left to do
C
      IF ( LSAME(TRANS,'N') ) THEN
        JX = KX
        IF ( INCY.EQ.1 ) THEN
          DO 60 J = 1,N
            HTMP1S = ALPHA * X(1,JX)
            HTMP1J = ALPHA * X(2,JX)
            HTMP2S = ALPHA * CONJG(X(1,JX))
            HTMP2J = ALPHA * CONJG(X(2,JX))
            Do 50 I = 1,M
C             Hamilton Product
              Y(1,I) = Y(1,I) + A(1,I,J)*HTMP1S - A(2,I,J)*HTMP2J
              Y(2,I) = Y(2,I) + A(1,I,J)*HTMP1J + A(2,I,J)*HTMP2S 
  50        CONTINUE 
            JX = JX + INCX
  60      CONTINUE
        ELSE
          DO 80 J = 1,N
            HTMP1S = ALPHA * X(1,JX)
            HTMP1J = ALPHA * X(2,JX)
            HTMP2S = ALPHA * CONJG(X(1,JX))
            HTMP2J = ALPHA * CONJG(X(2,JX))
            IY = KY
            Do 70 I = 1,M
C             Hamilton Product
              Y(1,IY) = Y(1,IY) + A(1,I,J)*HTMP1S - A(2,I,J)*HTMP2J
              Y(2,IY) = Y(2,IY) + A(1,I,J)*HTMP1J + A(2,I,J)*HTMP2S
              IY = IY + INCY
  70        CONTINUE 
            JX = JX + INCX
  80      CONTINUE
        ENDIF
      ELSE
        JY = KY
        IF ( INCX.EQ.1 ) THEN
          DO 110 J = 1,N
            HTMP1S = ZERO
            HTMP1J = ZERO
            IF ( NOCONJ ) THEN
              DO 90 I = 1,M
C             Hamilton Product
                HTMP1S = HTMP1S + 
     $            A(1,I,J)*X(1,I) - A(2,I,J)*CONJG(X(2,I))
                HTMP1J = HTMP1J + 
     $            A(1,I,J)*X(2,I) + A(2,I,J)*CONJG(X(1,I))
  90          CONTINUE
            ELSE
              DO 100 I = 1,M
C               Hamilton Product (IMPLIED CONJ(A))
                HTMP1S = HTMP1S + 
     $            CONJG(A(1,I,J))*X(1,I) + A(2,I,J)*CONJG(X(2,I))
                HTMP1J = HTMP1J + 
     $            CONJG(A(1,I,J))*X(2,I) - A(2,I,J)*CONJG(X(1,I))
  100         CONTINUE
            ENDIF
            Y(1,JY) = Y(1,JY) + ALPHA*HTMP1S
            Y(2,JY) = Y(2,JY) + ALPHA*HTMP1J
            JY = JY + INCY
  110     CONTINUE
        ELSE
          DO 140 J = 1,N
            HTMP1S = ZERO
            HTMP1J = ZERO
            IX = KX
            IF ( NOCONJ ) THEN
              DO 120 I = 1,M
C             Hamilton Product
                HTMP1S = HTMP1S + 
     $            A(1,I,J)*X(1,IX) - A(2,I,J)*CONJG(X(2,IX))
                HTMP1J = HTMP1J + 
     $            A(1,I,J)*X(2,IX) + A(2,I,J)*CONJG(X(1,IX))
                IX = IX + INCX
  120         CONTINUE
            ELSE
              DO 130 I = 1,M
C               Hamilton Product (IMPLIED CONJ(A))
                HTMP1S = HTMP1S + 
     $            CONJG(A(1,I,J))*X(1,IX) + A(2,I,J)*CONJG(X(2,IX))
                HTMP1J = HTMP1J + 
     $            CONJG(A(1,I,J))*X(2,IX) - A(2,I,J)*CONJG(X(1,IX))
                IX = IX + INCX
  130         CONTINUE
            ENDIF
            Y(1,JY) = Y(1,JY) + ALPHA*HTMP1S
            Y(2,JY) = Y(2,JY) + ALPHA*HTMP1J
            JY = JY + INCY
  140     CONTINUE
        ENDIF
      ENDIF
C
      END
".
(** src/hblas/fortran/hblas2/hgercd.f, all 67 lines *)
Definition src_hgercd : string := "C 
C     This file is a part of HAXX
C     
C     Copyright (c) 2017 David Williams-Young
C     All rights reserved.
C     
C     See LICENSE.txt 
C
      Subroutine HGERCD(M, N, ALPHA, X, INCX, Y, INCY, A, LDA)
C      
      LOGICAL    AZERO,AONE
      INTEGER*4  M,N, LDA,INCX,INCY, I,J,IY,JX,IX,JY, KX
      REAL*8     ALPHA
      COMPLEX*16 X(2,*), Y(2,*), A(2,LDA,*)
      COMPLEX*16    HTMPS, HTMPJ
C
      REAL*8        ONED, ZEROD
      COMPLEX*16    ONEZ, ZEROZ
      PARAMETER (ONED=1.0D+0, ZEROD=0.0D+0)
      PARAMETER (ONEZ=(1.0D+0,0.0D+0), ZEROZ=(0.0D+0,0.0D+0))
C

      AZERO = ALPHA.EQ.ZEROD
      AONE  = ALPHA.EQ.ONED

      IF ( M.EQ.0 .OR. N.EQ.0 .OR. AZERO ) RETURN
C
      IF ( INCY.GT.0 ) THEN
        JY = 1
      ELSE
        JY = 1 - (N-1)*INCY
      ENDIF
C
      IF ( INCX.EQ.1 ) THEN
        DO 20 J = 1,N
          IF ( Y(1,JY).NE.ZEROZ .OR. Y(2,JY).NE.ZEROZ ) THEN
            HTMPS = ALPHA * CONJG(Y(1,JY))
            HTMPJ = -ALPHA * Y(2,JY)
            DO 10 I = 1,M
              A(1,I,J) = A(1,I,J) + X(1,I)*HTMPS - X(2,I)*CONJG(HTMPJ)
              A(2,I,J) = A(2,I,J) + X(1,I)*HTMPJ + X(2,I)*CONJG(HTMPS)
  10        CONTINUE
          ENDIF
          JY = JY + INCY
  20    CONTINUE
      ELSE
        IF ( INCX.GT.0 ) THEN
          KX = 1
        ELSE
          KX = 1 - (M-1)*INCX
        ENDIF
        DO 40 J = 1,N
          IF ( Y(1,JY).NE.ZEROZ .OR. Y(2,JY).NE.ZEROZ ) THEN
            HTMPI = ALPHA * CONJG(Y(1,JY))
            HTMPJ = -ALPHA * Y(2,JY)
            IX = KX
            DO 30 I = 1,M
              A(1,I,J) = A(1,I,J) + X(1,IX)*HTMPS - X(2,IX)*CONJG(HTMPJ)
              A(2,I,J) = A(2,I,J) + X(1,IX)*HTMPJ + X(2,IX)*CONJG(HTMPS)
              IX = IX + INCX
  30        CONTINUE
          ENDIF
          JY = JY + INCY
  40    CONTINUE
      ENDIF 
C     
      END
".
(** src/hblas/fortran/hblas2/hgerch.f, all 87 lines *)
Definition src_hgerch : string := "C 
C     This file is a part of HAXX
C     
C     Copyright (c) 2017 David Williams-Young
C     All rights reserved.
C     
C     See LICENSE.txt 
C
      Subroutine HGERCH(M, N, ALPHA, X, INCX, Y, INCY, A, LDA)
C      
      LOGICAL    AZERO,AONE
      INTEGER*4  M,N, LDA,INCX,INCY, I,J,IY,JX,IX,JY, KX
      COMPLEX*16 X(2,*), Y(2,*), A(2,LDA,*), ALPHA(2)
      COMPLEX*16    HTMP1S, HTMP1J, HTMP2S, HTMP2J
      COMPLEX*16    HTMP3S, HTMP3J, HTMP4S, HTMP4J
C
      REAL*8        ONED, ZEROD
      COMPLEX*16    ONEZ, ZEROZ
      PARAMETER (ONED=1.0D+0, ZEROD=0.0D+0)
      PARAMETER (ONEZ=(1.0D+0,0.0D+0), ZEROZ=(0.0D+0,0.0D+0))
C

      AZERO = (ALPHA(1).EQ.ZEROZ).AND.(ALPHA(2).EQ.ZEROZ)
      AONE  = (ALPHA(1).EQ.ONEZ).AND.(ALPHA(2).EQ.ZEROZ)

      IF ( M.EQ.0 .OR. N.EQ.0 .OR. AZERO ) RETURN
C
      IF ( INCY.GT.0 ) THEN
        JY = 1
      ELSE
        JY = 1 - (N-1)*INCY
      ENDIF
C
      IF ( INCX.EQ.1 ) THEN
        DO 20 J = 1,N
          IF ( Y(1,JY).NE.ZEROZ .OR. Y(2,JY).NE.ZEROZ ) THEN
            HTMP1S =  ALPHA(1) * CONJG(Y(1,JY))
            HTMP1J = -ALPHA(1) * Y(2,JY)
            HTMP2S =  ALPHA(1) * Y(1,JY)
            HTMP2J = -ALPHA(1) * CONJG(Y(2,JY))
            HTMP3S =  ALPHA(2) * CONJG(Y(1,JY))
            HTMP3J = -ALPHA(2) * Y(2,JY)
            HTMP4S =  ALPHA(2) * Y(1,JY)
            HTMP4J = -ALPHA(2) * CONJG(Y(2,JY))
            DO 10 I = 1,M
              A(1,I,J) = A(1,I,J) + 
     $          X(1,I)*HTMP1S - X(2,I)*HTMP2J -
     $          CONJG(X(1,I))*HTMP4J - CONJG(X(2,I))*HTMP3S
              A(2,I,J) = A(2,I,J) + 
     $          X(1,I)*HTMP1J + X(2,I)*HTMP2S +
     $          CONJG(X(1,I))*HTMP4S - CONJG(X(2,I))*HTMP3J
  10        CONTINUE
          ENDIF
          JY = JY + INCY
  20    CONTINUE
      ELSE
        IF ( INCX.GT.0 ) THEN
          KX = 1
        ELSE
          KX = 1 - (M-1)*INCX
        ENDIF
        DO 40 J = 1,N
          IF ( Y(1,JY).NE.ZEROZ .OR. Y(2,JY).NE.ZEROZ ) THEN
            HTMP1S =  ALPHA(1) * CONJG(Y(1,JY))
            HTMP1J = -ALPHA(1) * Y(2,JY)
            HTMP2S =  ALPHA(1) * Y(1,JY)
            HTMP2J = -ALPHA(1) * CONJG(Y(2,JY))
            HTMP3S =  ALPHA(2) * CONJG(Y(1,JY))
            HTMP3J = -ALPHA(2) * Y(2,JY)
            HTMP4S =  ALPHA(2) * Y(1,JY)
            HTMP4J = -ALPHA(2) * CONJG(Y(2,JY))
            IX = KX
            DO 30 I = 1,M
              A(1,I,J) = A(1,I,J) + 
     $          X(1,IX)*HTMP1S - X(2,IX)*HTMP2J -
     $          CONJG(X(1,IX))*HTMP4J - CONJG(X(2,IX))*HTMP3S
              A(2,I,J) = A(2,I,J) + 
     $          X(1,IX)*HTMP1J + X(2,IX)*HTMP2S +
     $          CONJG(X(1,IX))*HTMP4S - CONJG(X(2,IX))*HTMP3J
              IX = IX + INCX
  30        CONTINUE
          ENDIF
          JY = JY + INCY
  40    CONTINUE
      ENDIF 
C     
      END
".
(** src/hblas/fortran/hblas2/hgercz.f, all 70 lines *)
Definition src_hgercz : string := "C 
C     This file is a part of HAXX
C     
C     Copyright (c) 2017 David Williams-Young
C     All rights reserved.
C     
C     See LICENSE.txt 
C
      Subroutine HGERCZ(M, N, ALPHA, X, INCX, Y, INCY, A, LDA)
C      
      LOGICAL    AZERO,AONE
      INTEGER*4  M,N, LDA,INCX,INCY, I,J,IY,JX,IX,JY, KX
      COMPLEX*16 X(2,*), Y(2,*), A(2,LDA,*), ALPHA
      COMPLEX*16    HTMP1S, HTMP1J, HTMP2S, HTMP2J
C
      REAL*8        ONED, ZEROD
      COMPLEX*16    ONEZ, ZEROZ
      PARAMETER (ONED=1.0D+0, ZEROD=0.0D+0)
      PARAMETER (ONEZ=(1.0D+0,0.0D+0), ZEROZ=(0.0D+0,0.0D+0))
C

      AZERO = ALPHA.EQ.ZEROZ
      AONE  = ALPHA.EQ.ONEZ

      IF ( M.EQ.0 .OR. N.EQ.0 .OR. AZERO ) RETURN
C
      IF ( INCY.GT.0 ) THEN
        JY = 1
      ELSE
        JY = 1 - (N-1)*INCY
      ENDIF
C
      IF ( INCX.EQ.1 ) THEN
        DO 20 J = 1,N
          IF ( Y(1,JY).NE.ZEROZ .OR. Y(2,JY).NE.ZEROZ ) THEN
            HTMP1S =  ALPHA * CONJG(Y(1,JY))
            HTMP1J = -ALPHA * Y(2,JY)
            HTMP2S =  ALPHA * Y(1,JY)
            HTMP2J = -ALPHA * CONJG(Y(2,JY))
            DO 10 I = 1,M
              A(1,I,J) = A(1,I,J) + X(1,I)*HTMP1S - X(2,I)*HTMP2J 
              A(2,I,J) = A(2,I,J) + X(1,I)*HTMP1J + X(2,I)*HTMP2S 
  10        CONTINUE
          ENDIF
          JY = JY + INCY
  20    CONTINUE
      ELSE
        IF ( INCX.GT.0 ) THEN
          KX = 1
        ELSE
          KX = 1 - (M-1)*INCX
        ENDIF
        DO 40 J = 1,N
          IF ( Y(1,JY).NE.ZEROZ .OR. Y(2,JY).NE.ZEROZ ) THEN
            HTMP1S =  ALPHA * CONJG(Y(1,JY))
            HTMP1J = -ALPHA * Y(2,JY)
            HTMP2S =  ALPHA * Y(1,JY)
            HTMP2J = -ALPHA * CONJG(Y(2,JY))
            IX = KX
            DO 30 I = 1,M
              A(1,I,J) = A(1,I,J) + X(1,IX)*HTMP1S - X(2,IX)*HTMP2J
              A(2,I,J) = A(2,I,J) + X(1,IX)*HTMP1J + X(2,IX)*HTMP2S 
              IX = IX + INCX
  30        CONTINUE
          ENDIF
          JY = JY + INCY
  40    CONTINUE
      ENDIF 
C     
      END
".
(** src/hblas/fortran/hblas2/hgerud.f, all 67 lines *)
Definition src_hgerud : string := "C 
C     This file is a part of HAXX
C     
C     Copyright (c) 2017 David Williams-Young
C     All rights reserved.
C     
C     See LICENSE.txt 
C
      Subroutine HGERUD(M, N, ALPHA, X, INCX, Y, INCY, A, LDA)
C      
      LOGICAL    AZERO,AONE
      INTEGER*4  M,N, LDA,INCX,INCY, I,J,IY,JX,IX,JY, KX
      REAL*8     ALPHA
      COMPLEX*16 X(2,*), Y(2,*), A(2,LDA,*)
      COMPLEX*16    HTMPS, HTMPJ
C
      REAL*8        ONED, ZEROD
      COMPLEX*16    ONEZ, ZEROZ
      PARAMETER (ONED=1.0D+0, ZEROD=0.0D+0)
      PARAMETER (ONEZ=(1.0D+0,0.0D+0), ZEROZ=(0.0D+0,0.0D+0))
C

      AZERO = ALPHA.EQ.ZEROD
      AONE  = ALPHA.EQ.ONED

      IF ( M.EQ.0 .OR. N.EQ.0 .OR. AZERO ) RETURN
C
      IF ( INCY.GT.0 ) THEN
        JY = 1
      ELSE
        JY = 1 - (N-1)*INCY
      ENDIF
C
      IF ( INCX.EQ.1 ) THEN
        DO 20 J = 1,N
          IF ( Y(1,JY).NE.ZEROZ .OR. Y(2,JY).NE.ZEROZ ) THEN
            HTMPS = ALPHA * Y(1,JY)
            HTMPJ = ALPHA * Y(2,JY)
            DO 10 I = 1,M
              A(1,I,J) = A(1,I,J) + X(1,I)*HTMPS - X(2,I)*CONJG(HTMPJ)
              A(2,I,J) = A(2,I,J) + X(1,I)*HTMPJ + X(2,I)*CONJG(HTMPS)
  10        CONTINUE
          ENDIF
          JY = JY + INCY
  20    CONTINUE
      ELSE
        IF ( INCX.GT.0 ) THEN
          KX = 1
        ELSE
          KX = 1 - (M-1)*INCX
        ENDIF
        DO 40 J = 1,N
          IF ( Y(1,JY).NE.ZEROZ .OR. Y(2,JY).NE.ZEROZ ) THEN
            HTMPI = ALPHA * Y(1,JY)
            HTMPJ = ALPHA * Y(2,JY)
            IX = KX
            DO 30 I = 1,M
              A(1,I,J) = A(1,I,J) + X(1,IX)*HTMPS - X(2,IX)*CONJG(HTMPJ)
              A(2,I,J) = A(2,I,J) + X(1,IX)*HTMPJ + X(2,IX)*CONJG(HTMPS)
              IX = IX + INCX
  30        CONTINUE
          ENDIF
          JY = JY + INCY
  40    CONTINUE
      ENDIF 
C     
      END
".
(** src/hblas/fortran/hblas2/hgeruh.f, all 87 lines *)
Definition src_hgeruh : string := "C 
C     This file is a part of HAXX
C     
C     Copyright (c) 2017 David Williams-Young
C     All rights reserved.
C     
C     See LICENSE.txt 
C
      Subroutine HGERUH(M, N, ALPHA, X, INCX, Y, INCY, A, LDA)
C      
      LOGICAL    AZERO,AONE
      INTEGER*4  M,N, LDA,INCX,INCY, I,J,IY,JX,IX,JY, KX
      COMPLEX*16 X(2,*), Y(2,*), A(2,LDA,*), ALPHA(2)
      COMPLEX*16    HTMP1S, HTMP1J, HTMP2S, HTMP2J
      COMPLEX*16    HTMP3S, HTMP3J, HTMP4S, HTMP4J
C
      REAL*8        ONED, ZEROD
      COMPLEX*16    ONEZ, ZEROZ
      PARAMETER (ONED=1.0D+0, ZEROD=0.0D+0)
      PARAMETER (ONEZ=(1.0D+0,0.0D+0), ZEROZ=(0.0D+0,0.0D+0))
C

      AZERO = (ALPHA(1).EQ.ZEROZ).AND.(ALPHA(2).EQ.ZEROZ)
      AONE  = (ALPHA(1).EQ.ONEZ).AND.(ALPHA(2).EQ.ZEROZ)

      IF ( M.EQ.0 .OR. N.EQ.0 .OR. AZERO ) RETURN
C
      IF ( INCY.GT.0 ) THEN
        JY = 1
      ELSE
        JY = 1 - (N-1)*INCY
      ENDIF
C
      IF ( INCX.EQ.1 ) THEN
        DO 20 J = 1,N
          IF ( Y(1,JY).NE.ZEROZ .OR. Y(2,JY).NE.ZEROZ ) THEN
            HTMP1S = ALPHA(1) * Y(1,JY)
            HTMP1J = ALPHA(1) * Y(2,JY)
            HTMP2S = ALPHA(1) * CONJG(Y(1,JY))
            HTMP2J = ALPHA(1) * CONJG(Y(2,JY))
            HTMP3S = ALPHA(2) * Y(1,JY)
            HTMP3J = ALPHA(2) * Y(2,JY)
            HTMP4S = ALPHA(2) * CONJG(Y(1,JY))
            HTMP4J = ALPHA(2) * CONJG(Y(2,JY))
            DO 10 I = 1,M
              A(1,I,J) = A(1,I,J) + 
     $          X(1,I)*HTMP1S - X(2,I)*HTMP2J -
     $          CONJG(X(1,I))*HTMP4J - CONJG(X(2,I))*HTMP3S
              A(2,I,J) = A(2,I,J) + 
     $          X(1,I)*HTMP1J + X(2,I)*HTMP2S +
     $          CONJG(X(1,I))*HTMP4S - CONJG(X(2,I))*HTMP3J
  10        CONTINUE
          ENDIF
          JY = JY + INCY
  20    CONTINUE
      ELSE
        IF ( INCX.GT.0 ) THEN
          KX = 1
        ELSE
          KX = 1 - (M-1)*INCX
        ENDIF
        DO 40 J = 1,N
          IF ( Y(1,JY).NE.ZEROZ .OR. Y(2,JY).NE.ZEROZ ) THEN
            HTMP1S = ALPHA(1) * Y(1,JY)
            HTMP1J = ALPHA(1) * Y(2,JY)
            HTMP2S = ALPHA(1) * CONJG(Y(1,JY))
            HTMP2J = ALPHA(1) * CONJG(Y(2,JY))
            HTMP3S = ALPHA(2) * Y(1,JY)
            HTMP3J = ALPHA(2) * Y(2,JY)
            HTMP4S = ALPHA(2) * CONJG(Y(1,JY))
            HTMP4J = ALPHA(2) * CONJG(Y(2,JY))
            IX = KX
            DO 30 I = 1,M
              A(1,I,J) = A(1,I,J) + 
     $          X(1,IX)*HTMP1S - X(2,IX)*HTMP2J -
     $          CONJG(X(1,IX))*HTMP4J - CONJG(X(2,IX))*HTMP3S
              A(2,I,J) = A(2,I,J) + 
     $          X(1,IX)*HTMP1J + X(2,IX)*HTMP2S +
     $          CONJG(X(1,IX))*HTMP4S - CONJG(X(2,IX))*HTMP3J
              IX = IX + INCX
  30        CONTINUE
          ENDIF
          JY = JY + INCY
  40    CONTINUE
      ENDIF 
C     
      END
".
(** src/hblas/fortran/hblas2/hgeruz.f, all 70 lines *)
Definition src_hgeruz : string := "C 
C     This file is a part of HAXX
C     
C     Copyright (c) 2017 David Williams-Young
C     All rights reserved.
C     
C     See LICENSE.txt 
C
      Subroutine HGERUZ(M, N, ALPHA, X, INCX, Y, INCY, A, LDA)
C      
      LOGICAL    AZERO,AONE
      INTEGER*4  M,N, LDA,INCX,INCY, I,J,IY,JX,IX,JY, KX
      COMPLEX*16 X(2,*), Y(2,*), A(2,LDA,*), ALPHA
      COMPLEX*16    HTMP1S, HTMP1J, HTMP2S, HTMP2J
C
      REAL*8        ONED, ZEROD
      COMPLEX*16    ONEZ, ZEROZ
      PARAMETER (ONED=1.0D+0, ZEROD=0.0D+0)
      PARAMETER (ONEZ=(1.0D+0,0.0D+0), ZEROZ=(0.0D+0,0.0D+0))
C

      AZERO = ALPHA.EQ.ZEROZ
      AONE  = ALPHA.EQ.ONEZ

      IF ( M.EQ.0 .OR. N.EQ.0 .OR. AZERO ) RETURN
C
      IF ( INCY.GT.0 ) THEN
        JY = 1
      ELSE
        JY = 1 - (N-1)*INCY
      ENDIF
C
      IF ( INCX.EQ.1 ) THEN
        DO 20 J = 1,N
          IF ( Y(1,JY).NE.ZEROZ .OR. Y(2,JY).NE.ZEROZ ) THEN
            HTMP1S = ALPHA * Y(1,JY)
            HTMP1J = ALPHA * Y(2,JY)
            HTMP2S = ALPHA * CONJG(Y(1,JY))
            HTMP2J = ALPHA * CONJG(Y(2,JY))
            DO 10 I = 1,M
              A(1,I,J) = A(1,I,J) + X(1,I)*HTMP1S - X(2,I)*HTMP2J 
              A(2,I,J) = A(2,I,J) + X(1,I)*HTMP1J + X(2,I)*HTMP2S 
  10        CONTINUE
          ENDIF
          JY = JY + INCY
  20    CONTINUE
      ELSE
        IF ( INCX.GT.0 ) THEN
          KX = 1
        ELSE
          KX = 1 - (M-1)*INCX
        ENDIF
        DO 40 J = 1,N
          IF ( Y(1,JY).NE.ZEROZ .OR. Y(2,JY).NE.ZEROZ ) THEN
            HTMP1S = ALPHA * Y(1,JY)
            HTMP1J = ALPHA * Y(2,JY)
            HTMP2S = ALPHA * CONJG(Y(1,JY))
            HTMP2J = ALPHA * CONJG(Y(2,JY))
            IX = KX
            DO 30 I = 1,M
              A(1,I,J) = A(1,I,J) + X(1,IX)*HTMP1S - X(2,IX)*HTMP2J
              A(2,I,J) = A(2,I,J) + X(1,IX)*HTMP1J + X(2,IX)*HTMP2S 
              IX = IX + INCX
  30        CONTINUE
          ENDIF
          JY = JY + INCY
  40    CONTINUE
      ENDIF 
C     
      END
".
